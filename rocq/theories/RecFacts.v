(** RecFacts: RecursionDFS::process_vertex is memory safe, terminates, records only cliques and, unless the clock
    expires, misses no larger one. *)
From Verif Require Import Base MBits MUtils MGraph MRec SpecBits BaseFacts BitsFacts SetFacts SortFacts RowFacts ConstructFacts CardFacts SearchBase FrameFacts FrameInv LexFacts StackFacts.
Local Open Scope nat_scope.
Local Arguments Nat.sub : simpl never.
Local Arguments Nat.mul : simpl never.

Section Rec.
  Variables (a : pairs) (nv cur : nat) (g0 : graph) (mcs0 : nat -> nat) (clk : nat -> bool).
  Hypothesis HC : gctx a nv.
  Hypothesis Hc : cur < nv.
  Hypothesis SH0 : shape a nv g0 mcs0.
  Notation N := (rlen a cur).
  Notation w := (words (rlen a cur)).
  Notation A := (padj a cur).
  Notation c0 := (search_cur g0).
  Hypothesis He : eb a nv <= c0.
  Let HS := gc_sorted _ _ HC.
  Let Hself := gc_self _ _ HC.
  Notation prog := (prog a nv g0).

  Lemma rec_filter_spec g mcs mv mw cp j F m : shape a nv g mcs -> j < N -> memok m -> rep m cp N F ->
    (forall x, x < N -> F x = true -> j < x) ->
    wp (rec_filter g (mkvert a mv cur) (mkvert a mw (nbr a cur j)) (refer_from cp N) j m)
       (fun m' => memok m' /\ rep m' cp N (fun x => F x && A j x) /\ same_out m m' cp w).
  Proof.
    intros SH Hj HM HR HF. set (e := nbr a cur j) in *.
    assert (HE : e < nv) by (apply (nbr_lt a nv HC); auto).
    destruct (sp_spec a nv HS Hself e HE) as [SP1 SP2].
    unfold rec_filter. apply wp_bind. cbn [mkvert vN vspos velo].
    apply (wp_for (j + 1) N _ (fun k s => memok (fst s) /\ rep (fst s) cp N (fun x => F x && ((k <=? x) || A j x)) /\ same_out m (fst s) cp w
        /\ exists p, snd s = Z.of_nat p /\ p <= rlen a e /\ forall k', k <= k' < N -> forall i, i < p -> nbr a e i < nbr a cur k')).
    - lia.
    - cbn [fst snd]. split; auto. split; [|split; [apply same_out_refl|]].
      + eapply rep_ext; eauto. intros x Hx. destruct (F x) eqn:E; auto. pose proof (HF x Hx E).
        destruct (Nat.leb_spec (j + 1) x); [auto|lia].
      + exists (sp a e + 1). split; [lia|]. split; [lia|]. intros k' Hk' i Hi. apply (nbr_upto_sp a nv HC); auto.
        pose proof (nbr_mono a nv HC cur j k' ltac:(lia)). unfold e in *. lia.
    - intros k [m1 start] Hk (I1 & I2 & I3 & p & I4 & I5 & I6). cbn [fst snd] in *.
      rewrite (bits_get_spec m1 cp N _ _ k I2) by (auto; lia). cbn [bind].
      rewrite Nat.leb_refl. cbn [orb]. rewrite andb_true_r.
      destruct (F k) eqn:EF; cbn [negb].
      + rewrite (sh_el _ _ _ _ SH), (rd_el a nv HC) by lia. cbn [bind]. apply wp_bind. rewrite I4, <- (sh_el _ _ _ _ SH).
        change (wrap (Z.of_nat (off a e) + Z.of_nat p)) with (wrap (Z.of_nat (velo (mkvert a mw e)) + Z.of_nat p)).
        change (wrap (Z.of_nat (rlen a e) - Z.of_nat p)) with (wrap (Z.of_nat (vN (mkvert a mw e)) - Z.of_nat p)).
        eapply wp_mono; [apply (scan_find a nv HC g mcs SH cur Hc); auto; try lia; intros; apply I6; auto; lia|].
        intros [fnd ans] (E & p' & P1 & P2 & P3). cbn [fst snd] in E, P1. subst fnd. apply wp_bind.
        destruct (A j k) eqn:EA.
        * apply wp_ok. apply wp_ok. cbn [fst snd]. split; auto. split; [|split; auto].
          -- eapply rep_ext; [exact I2|]. intros x Hx. cbv beta.
             destruct (Nat.leb_spec k x), (Nat.leb_spec (S k) x); auto; [|lia]. replace x with k by lia. rewrite EA. auto.
          -- exists p'. split; auto. split; auto. intros k' Hk'. apply P3. lia.
        * eapply wp_mono; [apply (bits_reset_spec m1 cp N _ _ k I1 I2); auto; lia|].
          intros m2 (M1 & M2 & M3). apply wp_ok. cbn [fst snd]. split; auto. split; [|split; [eapply same_out_trans; eauto|]].
          -- eapply rep_ext; [exact M2|]. intros x Hx. cbv beta. destruct (Nat.eqb_spec x k) as [->|].
             ++ rewrite EF, EA. destruct (Nat.leb_spec (S k) k); [lia|auto].
             ++ destruct (Nat.leb_spec k x), (Nat.leb_spec (S k) x); auto; lia.
          -- exists p'. split; auto. split; auto. intros k' Hk'. apply P3. lia.
      + apply wp_ok. cbn [fst snd]. split; auto. split; [|split; auto].
        * eapply rep_ext; [exact I2|]. intros x Hx. cbv beta.
          destruct (Nat.leb_spec k x), (Nat.leb_spec (S k) x); auto; [|lia]. replace x with k by lia. rewrite EF. auto.
        * exists p. split; auto. split; auto. intros k' Hk'. apply I6. lia.
    - intros [m1 start] (I1 & I2 & I3 & _). cbn [fst snd] in *. apply wp_ok. split; auto. split; auto.
      eapply rep_ext; [exact I2|]. intros x Hx. cbv beta. destruct (Nat.leb_spec N x); [lia|auto].
  Qed.

  (** The clock fired at some reading numbered from t up to t'. *)
  Definition fired (t t' : nat) : Prop := exists k, t <= k < t' /\ clk k = true.

  Definition extends (R S K : nat -> bool) : Prop :=
    (forall x, x < N -> R x = true -> K x = true) /\ forall x, x < N -> K x = true -> R x = true \/ S x = true.

  Definition complete (g : graph) (t t' : nat) (P : (nat -> bool) -> Prop) : Prop :=
    (forall K, rooted a cur K -> pclique a cur K -> P K -> card N K <= CUR_MAX_SIZE g)
    \/ CLIQUE_LIMIT g <= CUR_MAX_SIZE g \/ fired t t'.

  Definition lated : Prop := exists k, clk k = true.

  (** Nothing was recorded, or the first clique of its size. *)
  Definition best (g : graph) : Prop :=
    lated \/ CUR_MAX_SIZE g = CUR_MAX_SIZE g0 \/ exists K, rep (edge_bits g) (eb a cur) N K /\ rooted a cur K /\ pclique a cur K
      /\ card N K = CUR_MAX_SIZE g /\ forall K', rooted a cur K' -> pclique a cur K' -> card N K' = CUR_MAX_SIZE g -> first_or a cur K K'.

  (** No larger clique comes before the ones that extend R by S. *)
  Definition ahead (g : graph) (R S : nat -> bool) : Prop :=
    lated \/ CLIQUE_LIMIT g <= CUR_MAX_SIZE g \/ forall K, rooted a cur K -> pclique a cur K -> CUR_MAX_SIZE g < card N K ->
      extends R S K \/ forall K2, extends R S K2 -> lexlt a cur K2 K.

  Lemma best_frame g g' : CUR_MAX_SIZE g' = CUR_MAX_SIZE g -> length (edge_bits g') = length (edge_bits g) ->
    (forall k, k < c0 -> nth k (edge_bits g') 0%N = nth k (edge_bits g) 0%N) -> best g -> best g'.
  Proof.
    intros E L F [B|[B|(K & B1 & B2 & B3 & B4 & B5)]]; [left; auto|right; left; congruence|right; right]. rewrite E.
    exists K. split; [|auto]. destruct B1 as [X1 X2]. split; [lia|]. intros i Hi. rewrite <- X2 by auto. unfold wbit.
    pose proof (words_lt64 _ i Hi). pose proof (block_end a nv cur Hc). rewrite F by lia. auto.
  Qed.

  Lemma ahead_le g g' R S : CUR_MAX_SIZE g <= CUR_MAX_SIZE g' -> CLIQUE_LIMIT g' = CLIQUE_LIMIT g -> ahead g R S -> ahead g' R S.
  Proof.
    intros L E [H|[H|H]]; [left; auto|right; left; lia|right; right]. intros K K1 K2 K3. apply H; auto. lia.
  Qed.

  Record rpost (g : graph) (rp sc t : nat) (R S : nat -> bool) (P : (nat -> bool) -> Prop) (g' : graph) (t' : nat) : Prop := {
    rs_prog : prog g' mcs0 cur;
    rs_cur : search_cur g' = search_cur g;
    rs_zero : zero_from (edge_bits g') sc;
    rs_same : forall k, c0 <= k < sc -> ~ (rp <= k < rp + w) -> nth k (edge_bits g') 0%N = nth k (edge_bits g) 0%N;
    rs_res : rep (edge_bits g') rp N R;
    rs_le : CUR_MAX_SIZE g <= CUR_MAX_SIZE g';
    rs_t : t <= t';
    rs_comp : complete g' t t' P;
    rs_best : ahead g R S -> best g -> best g'
  }.

  Lemma set_mem_id g : set_mem g (edge_bits g) = g. Proof. destruct g; reflexivity. Qed.

  Lemma prog_len g : prog g mcs0 cur -> length (edge_bits g) = length (edge_bits g0).
  Proof. intros P. apply (pr_len _ _ _ _ _ _ P). Qed.

  Lemma prog_limit g : prog g mcs0 cur -> CLIQUE_LIMIT g = CLIQUE_LIMIT g0.
  Proof. intros P. pose proof (pr_core _ _ _ _ _ _ P) as E. unfold core in E. congruence. Qed.

  Lemma rec_search_spec mv f : forall g pc rp R S t,
    prog g mcs0 cur -> rep (edge_bits g) rp N R -> rep (edge_bits g) pc N S ->
    rooted a cur R -> pclique a cur R ->
    (forall x, x < N -> S x = true -> candp a cur x = true /\ R x = false /\ forall p, p < N -> R p = true -> A p x = true) ->
    c0 <= rp -> c0 <= pc -> rp + w <= search_cur g -> pc + w <= search_cur g -> (rp + w <= pc \/ pc + w <= rp) ->
    zero_from (edge_bits g) (search_cur g) -> search_cur g + 2 * w * card N S <= length (edge_bits g) ->
    (forall K, rooted a cur K -> pclique a cur K -> extends R S K -> card N K < card N R + f) ->
    wp (rec_search f clk cur (mkvert a mv cur) g (refer_from pc N) (refer_from rp N) t)
       (fun r => rpost g rp (search_cur g) t R S (extends R S) (fst r) (snd r)).
  Proof.
    induction f as [|f IH]; intros g pc rp R S t P HR HPC RT PQ HSx G1 G2 G3 G4 G5 HZ HSP HF; [specialize (HF R RT PQ ltac:(split; auto)); lia|].
    pose proof (len_pos a nv HS Hself cur Hc) as LP. pose proof (words_pos _ LP) as W.
    destruct (prog_shape a nv g0 g mcs0 cur SH0 P) as [mcs SH]. pose proof (sh_mem _ _ _ _ SH) as MOK.
    cbn [rec_search].
    rewrite (bits_count_spec (edge_bits g) pc N S) by auto. cbn [bind].
    rewrite (bits_count_spec (edge_bits g) rp N R) by auto. cbn [bind]. cbv zeta. rewrite set_mem_id.
    change (length (sel N S)) with (card N S). change (length (sel N R)) with (card N R).
    assert (DONE : forall t', t < t' -> complete g t t' (extends R S) ->
        rpost g rp (search_cur g) t R S (extends R S) g t').
    { intros t' Ht C. split; auto; lia. }
    destruct (clk t) eqn:ECK.
    { apply wp_ok. cbn [fst snd]. apply DONE; [lia|]. right. right. exists t. split; auto. }
    destruct (Nat.leb_spec (CLIQUE_LIMIT g) (CUR_MAX_SIZE g)) as [HL|HL].
    { apply wp_ok. cbn [fst snd]. apply DONE; [lia|]. right. left. auto. }
    destruct (Nat.leb_spec (card N S + card N R) (CUR_MAX_SIZE g)) as [HB|HB].
    { apply wp_ok. cbn [fst snd]. apply DONE; [lia|]. left. intros K K1 K2 [E1 E2]. etransitivity; [|exact HB].
      etransitivity; [apply (card_le _ _ (fun x => S x || R x))|apply card_or].
      intros i Hi Ki. destruct (E2 i Hi Ki) as [E|E]; rewrite E; auto. apply orb_true_r. }
    destruct (Nat.eqb_spec (card N S) 0) as [E0|N0].
    { (* record *)
      rewrite E0 in *. cbn [Nat.add] in *.
      apply wp_bind. eapply wp_mono; [apply (record_spec a nv g0 g mcs0 mcs cur rp R (card N R) Hc He SH P G1 HR RT PQ eq_refl HB)|].
      intros g1 (P1 & Q1 & Q2 & [Q3 Q4] & Q5). apply wp_ok. cbn [fst snd]. pose proof (block_end a nv cur Hc) as BE.
      split; auto; try lia.
      - intros k Hk. rewrite Q4 by lia. apply HZ. auto.
      - intros k Hk _. apply Q4. lia.
      - eapply rep_frame; [exact HR|split; [exact Q3|exact Q4]|]. lia.
      - left. intros K K1 K2 [X1 X2]. rewrite Q1. apply card_le. intros i Hi Ki. destruct (X2 i Hi Ki) as [|E]; auto.
        rewrite (proj1 (card_zero _ _) E0) in E by auto. discriminate.
      - intros [AH|[AH|AH]] _; [left; auto|lia|]. right. right. exists R. split; [exact Q5|]. split; auto. split; auto. split; auto.
        intros K' R1 R2 R3. rewrite Q1 in R3. destruct (AH K' R1 R2 ltac:(lia)) as [[X1 X2]|X].
        + left. intros x Hx. destruct (R x) eqn:ER; [symmetry; auto|]. destruct (K' x) eqn:EK; auto.
          destruct (X2 x Hx EK) as [E|E]; [congruence|]. rewrite (proj1 (card_zero _ _) E0) in E by auto. discriminate.
        + right. apply X. split; auto. }
    set (sc := search_cur g) in *.
    assert (SP2 : sc + 2 * w + 2 * w * (card N S - 1) <= length (edge_bits g)).
    { replace (card N S) with (Datatypes.S (card N S - 1)) in HSP by lia. rewrite Nat.mul_succ_r in HSP. lia. }
    assert (SP3 : sc + 2 * w <= length (edge_bits g)) by (etransitivity; [apply Nat.le_add_r|exact SP2]).
    cbn [mkvert vN].
    change {| vN := N; vspos := sp a cur; velo := off a cur; vebo := eb a cur; vmcs := mv; vbits := refer_from (eb a cur) N |} with (mkvert a mv cur).
    rewrite load_memory_ok by (fold sc; lia). cbn [bind set_cur edge_bits]. fold sc.
    apply wp_bind. eapply wp_mono; [apply (bits_copy_from_spec (edge_bits g) pc N S sc); auto; lia|].
    intros [m1 cb] (K1 & K2 & K3 & K4). cbn [fst snd] in *. subst cb.
    assert (LM1 : length m1 = length (edge_bits g)) by apply K4.
    rewrite load_memory_ok by (cbn [set_mem set_cur search_cur edge_bits]; lia).
    cbn [bind set_cur set_mem edge_bits search_cur].
    assert (K5 : rep m1 pc N S) by (eapply rep_frame; eauto).
    apply wp_bind. eapply wp_mono; [apply (bits_copy_from_spec m1 pc N S (sc + w)); auto; lia|].
    intros [m2 fc] (L1 & L2 & L3 & L4). cbn [fst snd] in *. subst fc.
    assert (LM2 : length m2 = length (edge_bits g)) by (destruct L4; lia).
    set (g2 := set_mem (set_cur (set_mem (set_cur g (sc + w)) m1) (sc + w + w)) m2).
    assert (O2 : forall k, ~ (sc <= k < sc + 2 * w) -> nth k m2 0%N = nth k (edge_bits g) 0%N).
    { intros k Hk. destruct K4 as [_ K4], L4 as [_ L4]. rewrite L4, K4; auto; lia. }
    assert (P2 : prog g2 mcs0 cur).
    { apply (prog_arena a nv g0 g mcs0 cur m2 (sc + w + w)); auto. intros k Hk. apply O2. lia. }
    (* loop invariant *)
    set (Inv := fun (j : nat) (s : graph * nat) => let '(h, u) := s in
       prog h mcs0 cur /\ search_cur h = sc + 2 * w /\ zero_from (edge_bits h) (sc + 2 * w)
       /\ (forall k, c0 <= k < sc -> ~ (rp <= k < rp + w) -> nth k (edge_bits h) 0%N = nth k (edge_bits g) 0%N)
       /\ rep (edge_bits h) rp N R /\ rep (edge_bits h) sc N (fun x => (j <=? x) && S x)
       /\ CUR_MAX_SIZE g <= CUR_MAX_SIZE h /\ t < u
       /\ complete h t u (fun K => extends R S K /\ exists x, x < j /\ K x = true /\ S x = true)
       /\ (ahead g R S -> best g -> best h)).
    apply wp_bind. apply (wp_for 0 N _ Inv); [lia| | |].
    - (* initially *)
      unfold Inv. split; [exact P2|]. split; [unfold g2; cbn [set_mem set_cur search_cur]; lia|]. split; [|split; [|split; [|split]]].
      + intros k Hk. unfold g2; cbn [set_mem set_cur edge_bits]. rewrite O2 by lia. apply HZ. fold sc. lia.
      + intros k Hk _. unfold g2; cbn [set_mem set_cur edge_bits]. apply O2. lia.
      + unfold g2; cbn [set_mem set_cur edge_bits]. apply (rep_frame (edge_bits g) m2 rp N R sc (2 * w)); auto. split; auto.
      + unfold g2; cbn [set_mem set_cur edge_bits]. eapply rep_ext; [apply (rep_frame m1 m2 sc N S (sc + w) w); auto; lia|]. auto.
      + split; [unfold g2; cbn [set_mem set_cur CUR_MAX_SIZE]; lia|]. split; [lia|]. split; [left; intros K _ _ (_ & x & Hx & _); lia|].
        intros _. apply best_frame; auto. intros k Hk. apply O2. lia.
    - (* step *)
      intros j [h u] Hj (I1 & I2 & I3 & I4 & I5 & I6 & I7 & I8 & I9 & I10).
      rewrite (bits_get_spec (edge_bits h) sc N _ _ j I6) by (auto; lia). cbn [bind].
      rewrite Nat.leb_refl. cbn [andb]. destruct (S j) eqn:Sj; cbn [negb].
      2:{ apply wp_ok. unfold Inv. repeat (split; [assumption|]). split; [|split; [assumption|split; [assumption|split; [|assumption]]]].
          - eapply rep_ext; [exact I6|]. intros x Hx. cbv beta. destruct (Nat.leb_spec j x), (Nat.leb_spec (Datatypes.S j) x); auto; [|lia].
            replace x with j by lia. rewrite Sj. auto.
          - destruct I9 as [C|C]; [left|right; auto]. intros K Q1 Q2 (Q3 & x & Hx & Kx & Sx). apply C; auto. split; auto. exists x. split; auto.
            destruct (Nat.eq_dec x j) as [->|]; [congruence|lia]. }
      destruct (prog_shape a nv g0 h mcs0 cur SH0 I1) as [mh SHh]. pose proof (sh_mem _ _ _ _ SHh) as MOKh.
      assert (LH : length (edge_bits h) = length (edge_bits g)) by (rewrite (prog_len h I1), (prog_len g P); auto).
      destruct (HSx j ltac:(lia) Sj) as (J1 & J2 & J3).
      change (velo (mkvert a mv cur)) with (off a cur). rewrite (sh_el _ _ _ _ SHh), (rd_el a nv HC) by lia. cbn [bind].
      apply wp_bind. eapply wp_mono; [apply (bits_set_spec (edge_bits h) rp N R _ j MOKh I5); auto; lia|].
      intros n1 (A1 & A2 & A3). pose proof A3 as [A3l A3o].
      assert (B1 : rep n1 sc N (fun x => (j <=? x) && S x)) by (eapply rep_frame; eauto; lia).
      apply wp_bind. eapply wp_mono; [apply (bits_reset_spec n1 sc N _ _ j A1 B1); auto; lia|].
      intros n2 (B2 & B3 & B4). pose proof B4 as [B4l B4o].
      apply wp_bind. eapply wp_mono; [apply (bits_copy_data_spec n2 (sc + w) sc N _ (refer_from (sc + w) N) (refer_from sc N) B2 B3); auto; lia|].
      intros n3 (D1 & D2 & D3). pose proof D3 as [D3l D3o].
      rewrite (sh_vs _ _ _ _ SHh), rd_vert by (apply (nbr_lt a nv HC); auto; lia). cbn [bind].
      apply wp_bind. eapply wp_mono; [apply (rec_filter_spec h mh mv _ (sc + w) j (fun x => negb (x =? j) && ((j <=? x) && S x)) n3 SHh); auto; try lia|].
      { intros x Hx E. cbv beta in E. apply andb_prop in E. destruct E as [E1 E2]. apply andb_prop in E2. destruct E2 as [E2 _].
        apply Nat.leb_le in E2. destruct (Nat.eqb_spec x j); [discriminate|lia]. }
      intros n4 (F1 & F2 & F3). pose proof F3 as [F3l F3o].
      set (S' := fun x => negb (x =? j) && ((j <=? x) && S x) && A j x) in *.
      set (R' := fun x => (x =? j) || R x) in *.
      assert (ON : forall k, ~ (rp <= k < rp + w) -> ~ (sc <= k < sc + 2 * w) -> nth k n4 0%N = nth k (edge_bits h) 0%N).
      { intros k H1 H2. rewrite F3o, D3o, B4o, A3o; auto; lia. }
      set (h1 := set_mem h n4).
      assert (Ph1 : prog h1 mcs0 cur).
      { unfold h1. rewrite set_mem_cur. apply prog_arena; auto; [lia|]. intros k Hk. apply ON; lia. }
      assert (RR : rep n4 rp N R').
      { refine (rep_frame n3 n4 rp N R' (sc + w) w _ F3 ltac:(lia)). refine (rep_frame n2 n3 rp N R' (sc + w) w _ D3 ltac:(lia)).
        refine (rep_frame n1 n2 rp N R' sc w _ B4 ltac:(lia)). exact A2. }
      assert (RC : rep n4 sc N (fun x => negb (x =? j) && ((j <=? x) && S x))).
      { refine (rep_frame n3 n4 sc N _ (sc + w) w _ F3 ltac:(lia)). refine (rep_frame n2 n3 sc N _ (sc + w) w _ D3 ltac:(lia)). exact B3. }
      assert (CS : card N S' <= card N S - 1).
      { pose proof (card_remove N S j ltac:(lia) Sj). assert (card N S' <= card N (fun i => negb (i =? j) && S i)); [|lia].
        apply card_le. intros i Hi E. unfold S' in E. apply andb_prop in E. destruct E as [E _]. apply andb_prop in E. destruct E as [E1 E2].
        apply andb_prop in E2. rewrite E1. tauto. }
      assert (S'in : forall x, S' x = true -> j < x /\ S x = true /\ A j x = true).
      { intros x E. unfold S' in E. apply andb_prop in E. destruct E as [E E3]. apply andb_prop in E. destruct E as [E1 E2].
        apply andb_prop in E2. destruct E2 as [E2 E4]. apply Nat.leb_le in E2. destruct (Nat.eqb_spec x j); [discriminate|]. repeat split; auto. lia. }
      apply wp_bind. eapply wp_mono.
      + apply (IH h1 (sc + w) rp R' S' u); auto; try (unfold h1; cbn [set_mem search_cur]; lia).
        * (* rooted *)
          destruct RT as [T1 T2]. split; [unfold R'; rewrite T1; apply orb_true_r|]. intros p Hp E. unfold R' in E.
          destruct (Nat.eqb_spec p j) as [->|]; auto.
        * intros p q Hp Hq Ep Eq NE. unfold R' in Ep, Eq.
          destruct (Nat.eqb_spec p j) as [->|], (Nat.eqb_spec q j) as [->|]; auto; try congruence; cbn [orb] in *.
          rewrite (padj_sym a nv HC) by auto. auto.
        * intros x Hx E. destruct (S'in x E) as (E1 & E2 & E3). destruct (HSx x Hx E2) as (E4 & E5 & E6). split; auto. split.
          -- unfold R'. rewrite E5. destruct (Nat.eqb_spec x j); [lia|auto].
          -- intros p Hp Ep. unfold R' in Ep. destruct (Nat.eqb_spec p j) as [->|]; auto.
        * unfold h1; cbn [set_mem search_cur edge_bits]. rewrite I2. intros k Hk. rewrite ON by lia. apply I3. auto.
        * unfold h1; cbn [set_mem search_cur edge_bits]. rewrite I2. replace (length n4) with (length (edge_bits g)) by lia.
          etransitivity; [|exact SP2]. apply Nat.add_le_mono_l, Nat.mul_le_mono_l. auto.
        * intros K Y1 Y2 [E1 E2]. unfold R'. rewrite card_add by (auto; lia). specialize (HF K Y1 Y2). assert (card N K < card N R + Datatypes.S f); [|lia]. apply HF. split.
          -- intros x Hx E. apply E1; auto. unfold R'. rewrite E. apply orb_true_r.
          -- intros x Hx E. destruct (E2 x Hx E) as [F|F].
             ++ unfold R' in F. destruct (Nat.eqb_spec x j) as [->|]; auto.
             ++ destruct (S'in x F) as (_ & F' & _). auto.
      + intros [h2 u2] [Q1 Q2 Q3 Q4 Q5 Q6 Q7 Q8 Q9]. cbn [fst snd] in *. change (search_cur h1) with (search_cur h) in *. rewrite I2 in *.
        change (edge_bits h1) with n4 in Q4. change (CUR_MAX_SIZE h1) with (CUR_MAX_SIZE h) in Q6.
        apply wp_bind. eapply wp_mono; [apply (bits_reset_spec (edge_bits h2) rp N R' _ j (pr_mem _ _ _ _ _ _ Q1) Q5); auto; lia|].
        intros n5 (X1 & X2 & X3). pose proof X3 as [X3l X3o]. apply wp_ok. unfold Inv. cbn [set_mem search_cur edge_bits CUR_MAX_SIZE].
        split; [|split; [|split; [|split; [|split; [|split; [|split; [|split; [|split]]]]]]]]; auto.
        * rewrite set_mem_cur. apply prog_arena; auto. intros k Hk. apply X3o. lia.
        * intros k Hk. rewrite X3o by lia. apply Q3. auto.
        * intros k Hk1 Hk2. rewrite X3o, Q4, ON by (auto; lia). apply I4; auto.
        * eapply rep_ext; [exact X2|]. intros x Hx. cbv beta. unfold R'. destruct (Nat.eqb_spec x j) as [->|]; auto.
        * refine (rep_frame (edge_bits h2) n5 sc N _ rp w _ X3 ltac:(lia)).
          apply (rep_ext _ _ _ (fun x => negb (x =? j) && ((j <=? x) && S x))).
          -- destruct RC as [RC1 RC2]. split; [rewrite (prog_len h2 Q1); rewrite <- (prog_len h1 Ph1); exact RC1|].
             intros i Hi. rewrite <- RC2 by auto. unfold wbit. pose proof (words_lt64 _ i Hi). rewrite Q4; auto; lia.
          -- intros x Hx. cbv beta. destruct (Nat.eqb_spec x j) as [->|]; cbn [negb andb].
             ++ destruct (Nat.leb_spec (Datatypes.S j) j); [lia|auto].
             ++ destruct (Nat.leb_spec j x), (Nat.leb_spec (Datatypes.S j) x); auto; lia.
        * lia.
        * lia.
        * destruct Q8 as [C8|[C8|C8]].
          -- destruct I9 as [C|[C|C]].
             ++ left. intros K Y1 Y2 (Y3 & x & Hx & Kx & Sx). cbn [set_mem CUR_MAX_SIZE].
                destruct (card j (fun x => K x && S x)) eqn:EC.
                ** assert (Kj : K j = true).
                   { destruct (Nat.eq_dec x j) as [->|]; auto. rewrite card_zero in EC. specialize (EC x ltac:(lia)). rewrite Kx, Sx in EC. discriminate. }
                   apply C8; auto. destruct Y3 as [Y3 Y4]. split.
                   --- intros y Hy E. unfold R' in E. destruct (Nat.eqb_spec y j) as [->|]; auto.
                   --- intros y Hy Ky. unfold R', S'. destruct (Nat.eqb_spec y j) as [->|NE]; auto. cbn [orb negb andb].
                       destruct (Y4 y Hy Ky) as [E|E]; auto. right. rewrite E, (Y2 j y) by (auto; lia).
                       destruct (Nat.leb_spec j y); auto. rewrite card_zero in EC. specialize (EC y ltac:(lia)). rewrite Ky, E in EC. discriminate.
                ** etransitivity; [|exact Q6]. apply C; auto. split; auto.
                   assert (0 < card j (fun x => K x && S x)) as PP by lia. apply card_pos in PP. destruct PP as (y & Hy & E). apply andb_prop in E.
                   exists y. tauto.
             ++ right. left. cbn [set_mem CLIQUE_LIMIT CUR_MAX_SIZE]. rewrite (prog_limit h2 Q1), <- (prog_limit h I1). lia.
             ++ right. right. destruct C as (k & Hk & E). exists k. split; auto. lia.
          -- right. left. exact C8.
          -- right. right. destruct C8 as (k & Hk & E). exists k. split; auto. lia.
        * intros AH BG. apply (best_frame h2); auto; [intros k Hk; apply X3o; lia|]. apply Q9.
          -- destruct (ahead_le g h R S I7 ltac:(rewrite (prog_limit h I1), (prog_limit g P); auto) AH) as [AH1|[AH1|AH1]]; [left; auto|right; left; exact AH1|].
             destruct I9 as [C|[C|(k & _ & C)]]; [|right; left; exact C|left; exists k; auto].
             right. right. intros K Y1 Y2 Y3. change (CUR_MAX_SIZE h1) with (CUR_MAX_SIZE h) in Y3.
             assert (EX : forall Kz, extends R' S' Kz -> extends R S Kz).
             { intros Kz [E1 E2]. split.
               - intros x Hx E. apply E1; auto. unfold R'. rewrite E. apply orb_true_r.
               - intros x Hx E. destruct (E2 x Hx E) as [F|F].
                 + unfold R' in F. destruct (Nat.eqb_spec x j) as [->|]; auto.
                 + destruct (S'in x F) as (_ & F' & _). auto. }
             destruct (AH1 K Y1 Y2 Y3) as [[E1 E2]|E]; [|right; intros Kz E3; apply E, EX; auto].
             destruct (card (Datatypes.S j) (fun x => K x && S x)) eqn:EC.
             ++ right. intros Kz [GF1 GF2]. rewrite card_zero in EC.
                assert (NS : forall y, y <= j -> S y = true -> K y = false).
                { intros y Hy Sy. specialize (EC y ltac:(lia)). rewrite Sy in EC. destruct (K y); auto. }
                exists j. split; [lia|]. split; [apply GF1; [lia|]; unfold R'; rewrite Nat.eqb_refl; auto|]. split; [apply NS; auto|].
                intros y Hy. destruct (R y) eqn:ER.
                ** rewrite E1, GF1 by (auto; try lia; unfold R'; rewrite ER; apply orb_true_r). auto.
                ** destruct (Kz y) eqn:EKz; [exfalso|].
                   --- destruct (GF2 y ltac:(lia) EKz) as [F|F].
                       +++ unfold R' in F. rewrite ER in F. destruct (Nat.eqb_spec y j); [lia|discriminate].
                       +++ destruct (S'in y F) as (F' & _). lia.
                   --- symmetry. destruct (K y) eqn:EK; auto. destruct (E2 y ltac:(lia) EK) as [F|F]; [congruence|].
                       rewrite (NS y) in EK by (auto; lia). discriminate.
             ++ left. assert (0 < card (Datatypes.S j) (fun x => K x && S x)) as PP by lia. apply card_pos in PP. destruct PP as (x & Hx & E).
                apply andb_prop in E. destruct E as [Kx Sx].
                assert (LOW : forall y, y < j -> K y = true -> S y = true -> False).
                { intros y Hy Ky Sy. specialize (C K Y1 Y2). assert (card N K <= CUR_MAX_SIZE h); [|lia]. apply C. split; [split; auto|]. exists y. auto. }
                assert (x = j) as -> by (destruct (Nat.eq_dec x j); auto; exfalso; apply (LOW x); auto; lia).
                split.
                ** intros y Hy F. unfold R' in F. destruct (Nat.eqb_spec y j) as [->|]; auto.
                ** intros y Hy Ky. unfold R', S'. destruct (Nat.eqb_spec y j) as [->|NE]; auto. cbn [orb negb andb].
                   destruct (E2 y Hy Ky) as [F|F]; auto. right. rewrite F, (Y2 j y) by (auto; lia).
                   destruct (Nat.leb_spec j y); auto. exfalso. apply (LOW y); auto.
          -- apply (best_frame h); auto.
             ++ unfold h1. cbn [set_mem edge_bits]. lia.
             ++ unfold h1. cbn [set_mem edge_bits]. intros k Hk. apply ON; lia.
    - (* after the loop *)
      intros [h u] (I1 & I2 & I3 & I4 & I5 & I6 & I7 & I8 & I9 & I10).
      assert (LH : length (edge_bits h) = length (edge_bits g)) by (rewrite (prog_len h I1), (prog_len g P); auto).
      apply wp_bind. eapply wp_mono; [apply clear_memory_spec; [apply (pr_mem _ _ _ _ _ _ I1)|rewrite I2; lia]|].
      rewrite I2. intros h' (m5 & -> & M1 & M2 & M3). replace (sc + 2 * w - 2 * w) with sc in * by lia. destruct M2 as [M2l M2].
      apply wp_ok. cbn [fst snd]. split; cbn [set_cur set_mem edge_bits search_cur CUR_MAX_SIZE]; auto; try lia.
      + apply prog_arena; auto. intros k Hk. apply M2. lia.
      + intros k Hk. destruct (Nat.lt_ge_cases k (sc + 2 * w)); [apply M3; lia|]. rewrite M2 by lia. apply I3. auto.
      + intros k Hk1 Hk2. rewrite M2 by lia. apply I4; auto.
      + eapply rep_frame; [exact I5|split; [exact M2l|exact M2]|]. lia.
      + destruct I9 as [C|C]; [left|right; exact C]. cbn [set_cur set_mem CUR_MAX_SIZE].
        assert (CK : forall K, rooted a cur K -> pclique a cur K -> extends R S K -> (exists x, x < N /\ K x = true /\ S x = true) -> card N K <= CUR_MAX_SIZE h).
        { intros K Y1 Y2 Y3 Y4. apply C; auto. }
        intros K Y1 Y2 Y3. destruct (card N (fun x => K x && S x)) eqn:EC.
        * (* K = R: some extension by a candidate was searched *)
          assert (0 < card N S) as PS by lia. apply card_pos in PS. destruct PS as (j & Hj & Sj). destruct (HSx j Hj Sj) as (J1 & J2 & J3).
          assert (KR : forall x, x < N -> K x = true -> R x = true).
          { intros x Hx Kx. destruct (proj2 Y3 x Hx Kx) as [|E]; auto. rewrite card_zero in EC. specialize (EC x Hx). rewrite Kx, E in EC. discriminate. }
          etransitivity; [apply (card_le N K (fun x => (x =? j) || R x)); intros i Hi Ki; rewrite KR by auto; apply orb_true_r|].
          apply CK.
          -- destruct RT as [T1 T2]. split; [rewrite T1; apply orb_true_r|]. intros p Hp E. destruct (Nat.eqb_spec p j) as [->|]; auto.
          -- intros p q Hp Hq Ep Eq NE. destruct (Nat.eqb_spec p j) as [->|], (Nat.eqb_spec q j) as [->|]; auto; try congruence; cbn [orb] in *.
             rewrite (padj_sym a nv HC) by auto. auto.
          -- split; [intros x Hx E; rewrite E; apply orb_true_r|]. intros x Hx E. destruct (Nat.eqb_spec x j) as [->|]; auto.
          -- exists j. split; auto. rewrite Nat.eqb_refl. auto.
        * apply CK; auto. assert (0 < card N (fun x => K x && S x)) as PP by lia. apply card_pos in PP. destruct PP as (y & Hy & E).
          apply andb_prop in E. exists y. tauto.
      + intros AH BG. apply (best_frame h); auto. intros k Hk. apply M2. lia.
  Qed.

  Hypothesis HZ0 : zero_from (edge_bits g0) c0.
  Hypothesis HSP0 : c0 + 2 * w * bound a cur <= length (edge_bits g0).

  Theorem rec_process_vertex_full t :
    wp (rec_process_vertex clk g0 cur t)
       (fun r => searched a nv cur g0 mcs0 (fst r) /\ t <= snd r
          /\ (no_larger a cur (CUR_MAX_SIZE (fst r)) \/ CLIQUE_LIMIT (fst r) <= CUR_MAX_SIZE (fst r) \/ fired t (snd r))
          /\ best (fst r)).
  Proof.
    pose proof (len_pos a nv HS Hself cur Hc) as LP. pose proof (words_pos _ LP) as W.
    destruct (sp_spec a nv HS Hself cur Hc) as [S1 S2]. pose proof (block_end a nv cur Hc) as BE.
    unfold rec_process_vertex. rewrite (sh_vs _ _ _ _ SH0), rd_vert by auto. cbn [bind].
    change (vN (mkvert a (mcs0 cur) cur)) with N. change (vspos (mkvert a (mcs0 cur) cur)) with (sp a cur). cbv zeta.
    assert (SPX : c0 + 2 * w + 2 * w * card N (candp a cur) <= length (edge_bits g0)).
    { rewrite (bound_card a), Nat.mul_succ_r in HSP0. lia. }
    assert (SP : c0 + 2 * w <= length (edge_bits g0)) by (etransitivity; [apply Nat.le_add_r|exact SPX]).
    rewrite load_memory_ok by lia. cbn [bind].
    rewrite load_memory_ok by (cbn [set_cur search_cur edge_bits]; lia). cbn [bind set_cur search_cur edge_bits].
    assert (Z1 : rep (edge_bits g0) c0 N (fun _ => false)) by (apply rep_zero; [lia|intros; apply HZ0; lia]).
    assert (Z2 : rep (edge_bits g0) (c0 + w) N (fun _ => false)) by (apply rep_zero; [lia|intros; apply HZ0; lia]).
    apply wp_bind. eapply wp_mono; [apply (bits_set_spec (edge_bits g0) c0 N _ _ (sp a cur) (sh_mem _ _ _ _ SH0) Z1); auto|].
    intros m1 (K1 & K2 & K3). pose proof K3 as [K3l K3o].
    match goal with |- context [root_cands ?G _ _] => set (g1 := G) end.
    assert (SH1 : shape a nv g1 mcs0) by (destruct SH0; split; auto).
    apply wp_bind. eapply wp_mono; [apply (root_cands_spec a nv HC g1 mcs0 cur (mcs0 cur) (c0 + w) SH1 Hc)|].
    { eapply rep_frame; [exact Z2|exact K3|lia]. }
    change (edge_bits g1) with m1. intros [m2 pot] (L1 & L2 & L3 & EPOT). cbn [fst snd] in L1, L2, L3, EPOT. subst pot. pose proof L3 as [L3l L3o].
    match goal with |- context [if CUR_MAX_SIZE ?G <? _ then _ else _] => set (g2 := G) end.
    assert (P2 : prog g2 mcs0 cur).
    { change g2 with (set_cur (set_mem g0 m2) (c0 + w + w)). apply prog_arena; auto; [apply prog_refl; auto|congruence|].
      intros k Hk. rewrite L3o, K3o; auto; lia. }
    assert (Z3 : zero_from m2 (c0 + 2 * w)).
    { intros k Hk. rewrite L3o, K3o by lia. apply HZ0. lia. }
    apply wp_bind.
    apply (wp_mono _ (fun r => prog (fst r) mcs0 cur /\ search_cur (fst r) = c0 + 2 * w /\ zero_from (edge_bits (fst r)) (c0 + 2 * w)
       /\ t <= snd r /\ (no_larger a cur (CUR_MAX_SIZE (fst r)) \/ CLIQUE_LIMIT (fst r) <= CUR_MAX_SIZE (fst r) \/ fired t (snd r)) /\ best (fst r))).
    - destruct (Nat.ltb_spec (CUR_MAX_SIZE g2) (bound a cur)) as [HB|HB].
      + eapply wp_mono; [apply (rec_search_spec (mcs0 cur) (S N) g2 (c0 + w) c0 (fun x => (x =? sp a cur) || false) (candp a cur) t)|]; auto.
        * change (edge_bits g2) with m2. eapply rep_frame; [exact K2|exact L3|lia].
        * split; [rewrite Nat.eqb_refl; auto|]. intros p Hp E. destruct (Nat.eqb_spec p (sp a cur)); auto. discriminate.
        * intros p q Hp Hq Ep Eq NE. destruct (Nat.eqb_spec p (sp a cur)), (Nat.eqb_spec q (sp a cur)); try discriminate. congruence.
        * intros x Hx E. split; auto. split.
          -- destruct (Nat.eqb_spec x (sp a cur)) as [->|]; auto. rewrite (candp_sp a nv HS Hself cur Hc) in E. discriminate.
          -- intros p Hp Ep. destruct (Nat.eqb_spec p (sp a cur)) as [->|]; [|discriminate]. apply (padj_root a nv HC); auto.
        * lia.
        * change (search_cur g2) with (c0 + w + w). lia.
        * change (search_cur g2) with (c0 + w + w). replace (c0 + w + w) with (c0 + 2 * w) by lia. exact Z3.
        * change (search_cur g2) with (c0 + w + w). change (edge_bits g2) with m2. replace (c0 + w + w) with (c0 + 2 * w) by lia. lia.
        * intros K _ _ _. pose proof (card_bound N K). lia.
        * intros [h u] [Q1 Q2 Q3 Q4 Q5 Q6 Q7 Q8 Q9]. cbn [fst snd] in *. change (search_cur g2) with (c0 + w + w) in *.
          replace (c0 + w + w) with (c0 + 2 * w) in * by lia. repeat (split; [assumption|]).
          assert (ALL : forall K, rooted a cur K -> extends (fun x => (x =? sp a cur) || false) (candp a cur) K).
          { intros K RK. destruct RK as [RK1 RK2]. split.
            - intros x Hx E. destruct (Nat.eqb_spec x (sp a cur)) as [->|]; [auto|discriminate].
            - intros x Hx E. destruct (RK2 x Hx E) as [->|]; auto. rewrite Nat.eqb_refl. auto. }
          split; [|apply Q9; [right; right; intros K RK _ _; left; auto|right; left; reflexivity]].
          destruct Q8 as [C|C]; [left|right; exact C]. intros K RK PK _. apply C; auto.
      + apply wp_ok. cbn [fst snd]. split; auto. split; [change (search_cur g2) with (c0 + w + w); lia|]. split; [exact Z3|]. split; auto.
        split; [|right; left; reflexivity]. left. intros K [R1 R2] PK _. etransitivity; [|exact HB].
        rewrite (bound_card a), <- (card_add N (candp a cur) (sp a cur)); auto; [|apply (candp_sp a nv HS Hself cur Hc)].
        apply card_le. intros i Hi Ki. destruct (R2 i Hi Ki) as [->|E]; [rewrite Nat.eqb_refl; auto|rewrite E, orb_true_r; auto].
    - intros [h u] (H1 & H2 & H3 & H4 & H5 & H6). cbn [fst snd] in *.
      apply wp_bind. eapply wp_mono; [apply clear_memory_spec; [apply (pr_mem _ _ _ _ _ _ H1)|rewrite H2, (prog_len h H1); lia]|].
      rewrite H2. replace (c0 + 2 * w - 2 * w) with c0 by lia. intros h' (m5 & -> & M1 & M2 & M3). destruct M2 as [M2l M2].
      apply wp_ok. cbn [fst snd set_cur set_mem CUR_MAX_SIZE CLIQUE_LIMIT]. split; [|split; [auto|split; [auto|]]]; [split; auto|].
      + apply prog_arena; auto. intros k Hk. apply M2. lia.
      + intros k Hk. cbn [set_cur set_mem edge_bits]. destruct (Nat.lt_ge_cases k (c0 + 2 * w)); [apply M3; lia|]. rewrite M2 by lia. apply H3. auto.
      + apply (best_frame h); auto. intros k Hk. apply M2. lia.
  Qed.

  Theorem rec_process_vertex_spec t :
    wp (rec_process_vertex clk g0 cur t)
       (fun r => searched a nv cur g0 mcs0 (fst r) /\ t <= snd r
          /\ (no_larger a cur (CUR_MAX_SIZE (fst r)) \/ CLIQUE_LIMIT (fst r) <= CUR_MAX_SIZE (fst r) \/ fired t (snd r))).
  Proof. eapply wp_mono; [apply rec_process_vertex_full|]. intros r (H1 & H2 & H3 & _). auto. Qed.
End Rec.
