(** DepthNeed: the recursion of the timed search is as deep as the answer is large (C107). *)
From Verif Require Import Base MBits MUtils MGraph MHeur MStack MRec MEnum MApi MDepth Spec SpecBits BaseFacts BitsFacts SetFacts SortFacts RowFacts ConstructFacts CardFacts LoadFacts SearchBase FrameFacts FrameInv LexFacts StackFacts RecFacts HeurFacts SearchFacts CliqueFacts ApiFacts EnumApi SearchProps DepthFacts.
Local Open Scope nat_scope.
Local Arguments Nat.sub : simpl never.
Local Arguments Nat.mul : simpl never.

(** ** Runs that may run out of room *)
Definition pw {A} (o : outcome A) (Q : A -> Prop) : Prop := match o with Ok x => Q x | OutOfFuel => True | UB _ => False end.

Lemma pw_ok {A} (x : A) (Q : A -> Prop) : Q x -> pw (Ok x) Q. Proof. auto. Qed.

Lemma pw_of {A} (o : outcome A) (P Q : A -> Prop) : wp o P -> (forall x, P x -> Q x) -> pw o Q.
Proof. destruct o; cbn; auto. Qed.

Lemma pw_mono {A} (o : outcome A) (P Q : A -> Prop) : pw o P -> (forall x, P x -> Q x) -> pw o Q.
Proof. destruct o; cbn; auto. Qed.

Lemma pw_bind {A B} (o : outcome A) (f : A -> outcome B) Q : pw o (fun x => pw (f x) Q) -> pw (bind o f) Q.
Proof. destruct o; cbn; auto. Qed.

Lemma pw_for {S} lo hi (f : nat -> S -> outcome S) (I : nat -> S -> Prop) s (Q : S -> Prop) : lo <= hi -> I lo s ->
  (forall i s, lo <= i < hi -> I i s -> pw (f i s) (I (Datatypes.S i))) -> (forall s, I hi s -> Q s) -> pw (for_ lo hi f s) Q.
Proof.
  intros L H0 HS HQ. unfold for_. remember (hi - lo) as k eqn:E. revert lo s L H0 HS E.
  induction k as [|k IH]; intros lo s L H0 HS E; cbn [seq foldM]; [apply HQ; replace hi with lo by lia; exact H0|].
  apply pw_bind. eapply pw_mono; [apply HS; [lia|exact H0]|]. intros s' H'. apply IH; auto; [lia| |lia]. intros i s'' R. apply HS. lia.
Qed.

Section Deep.
  Variables (a : pairs) (nv cur : nat) (g0 : graph) (mcs0 : nat -> nat) (clk : nat -> bool).
  Hypothesis HC : gctx a nv.
  Hypothesis Hc : cur < nv.
  Hypothesis SH0 : shape a nv g0 mcs0.
  Notation N := (rlen a cur).
  Notation w := (words (rlen a cur)).
  Notation A := (padj a cur).
  Notation c0 := (search_cur g0).
  Hypothesis He : eb a nv <= c0.
  Let HS := gc_sorted _ _ HC.
  Let Hself := gc_self _ _ HC.
  Notation prog := (prog a nv g0).

  (** What a call with room for further ones leaves behind: nothing larger than [d] was recorded. *)
  Record dpost (g : graph) (rp sc d : nat) (R : nat -> bool) (g' : graph) : Prop := {
    dp_prog : prog g' mcs0 cur;
    dp_cur : search_cur g' = search_cur g;
    dp_zero : zero_from (edge_bits g') sc;
    dp_same : forall k, c0 <= k < sc -> ~ (rp <= k < rp + w) -> nth k (edge_bits g') 0%N = nth k (edge_bits g) 0%N;
    dp_res : rep (edge_bits g') rp N R;
    dp_size : CUR_MAX_SIZE g' <= Nat.max (CUR_MAX_SIZE g) d
  }.

  Let prog_len := prog_len a nv cur g0 mcs0.
  Let rec_filter_spec := rec_filter_spec a nv cur g0 HC Hc He.

  Lemma rec_deep mv f : forall g pc rp R S t,
    prog g mcs0 cur -> rep (edge_bits g) rp N R -> rep (edge_bits g) pc N S ->
    rooted a cur R -> pclique a cur R ->
    (forall x, x < N -> S x = true -> candp a cur x = true /\ R x = false /\ forall p, p < N -> R p = true -> A p x = true) ->
    c0 <= rp -> c0 <= pc -> rp + w <= search_cur g -> pc + w <= search_cur g -> (rp + w <= pc \/ pc + w <= rp) ->
    zero_from (edge_bits g) (search_cur g) -> search_cur g + 2 * w * card N S <= length (edge_bits g) ->
    pw (rec_search f clk cur (mkvert a mv cur) g (refer_from pc N) (refer_from rp N) t)
       (fun r => dpost g rp (search_cur g) (card N R + f - 1) R (fst r)).
  Proof.
    induction f as [|f IH]; intros g pc rp R S t P HR HPC RT PQ HSx G1 G2 G3 G4 G5 HZ HSP; [exact I|].
    pose proof (len_pos a nv HS Hself cur Hc) as LP. pose proof (words_pos _ LP) as W.
    destruct (prog_shape a nv g0 g mcs0 cur SH0 P) as [mcs SH]. pose proof (sh_mem _ _ _ _ SH) as MOK.
    cbn [rec_search].
    rewrite (bits_count_spec (edge_bits g) pc N S) by auto. cbn [bind].
    rewrite (bits_count_spec (edge_bits g) rp N R) by auto. cbn [bind]. cbv zeta. rewrite set_mem_id.
    change (length (sel N S)) with (card N S). change (length (sel N R)) with (card N R).
    assert (DONE : dpost g rp (search_cur g) (card N R + Datatypes.S f - 1) R g) by (split; auto; lia).
    destruct (clk t) eqn:ECK.
    { apply pw_ok. exact DONE. }
    destruct (Nat.leb_spec (CLIQUE_LIMIT g) (CUR_MAX_SIZE g)) as [HL|HL]; [apply pw_ok; exact DONE|].
    destruct (Nat.leb_spec (card N S + card N R) (CUR_MAX_SIZE g)) as [HB|HB]; [apply pw_ok; exact DONE|].
    destruct (Nat.eqb_spec (card N S) 0) as [E0|N0].
    { (* record *)
      rewrite E0 in *. cbn [Nat.add] in *.
      apply pw_bind. eapply pw_of; [apply (record_spec a nv g0 g mcs0 mcs cur rp R (card N R) Hc He SH P G1 HR RT PQ eq_refl HB)|].
      intros g1 (P1 & Q1 & Q2 & [Q3 Q4] & Q5). apply pw_ok. cbn [fst snd]. pose proof (block_end a nv cur Hc) as BE.
      split; auto; try lia.
      - intros k Hk. rewrite Q4 by lia. apply HZ. auto.
      - intros k Hk _. apply Q4. lia.
      - eapply rep_frame; [exact HR|split; [exact Q3|exact Q4]|]. lia. }
    set (sc := search_cur g) in *.
    assert (SP2 : sc + 2 * w + 2 * w * (card N S - 1) <= length (edge_bits g)).
    { replace (card N S) with (Datatypes.S (card N S - 1)) in HSP by lia. rewrite Nat.mul_succ_r in HSP. lia. }
    assert (SP3 : sc + 2 * w <= length (edge_bits g)) by (etransitivity; [apply Nat.le_add_r|exact SP2]).
    cbn [mkvert vN].
    change {| vN := N; vspos := sp a cur; velo := off a cur; vebo := eb a cur; vmcs := mv; vbits := refer_from (eb a cur) N |} with (mkvert a mv cur).
    rewrite load_memory_ok by (fold sc; lia). cbn [bind set_cur edge_bits]. fold sc.
    apply pw_bind. eapply pw_of; [apply (bits_copy_from_spec (edge_bits g) pc N S sc); auto; lia|].
    intros [m1 cb] (K1 & K2 & K3 & K4). cbn [fst snd] in *. subst cb.
    assert (LM1 : length m1 = length (edge_bits g)) by apply K4.
    rewrite load_memory_ok by (cbn [set_mem set_cur search_cur edge_bits]; lia).
    cbn [bind set_cur set_mem edge_bits search_cur].
    assert (K5 : rep m1 pc N S) by (eapply rep_frame; eauto).
    apply pw_bind. eapply pw_of; [apply (bits_copy_from_spec m1 pc N S (sc + w)); auto; lia|].
    intros [m2 fc] (L1 & L2 & L3 & L4). cbn [fst snd] in *. subst fc.
    assert (LM2 : length m2 = length (edge_bits g)) by (destruct L4; lia).
    set (g2 := set_mem (set_cur (set_mem (set_cur g (sc + w)) m1) (sc + w + w)) m2).
    assert (O2 : forall k, ~ (sc <= k < sc + 2 * w) -> nth k m2 0%N = nth k (edge_bits g) 0%N).
    { intros k Hk. destruct K4 as [_ K4], L4 as [_ L4]. rewrite L4, K4; auto; lia. }
    assert (P2 : prog g2 mcs0 cur).
    { apply (prog_arena a nv g0 g mcs0 cur m2 (sc + w + w)); auto. intros k Hk. apply O2. lia. }
    (* loop invariant *)
    set (Inv := fun (j : nat) (s : graph * nat) => let '(h, u) := s in
       prog h mcs0 cur /\ search_cur h = sc + 2 * w /\ zero_from (edge_bits h) (sc + 2 * w)
       /\ (forall k, c0 <= k < sc -> ~ (rp <= k < rp + w) -> nth k (edge_bits h) 0%N = nth k (edge_bits g) 0%N)
       /\ rep (edge_bits h) rp N R /\ rep (edge_bits h) sc N (fun x => (j <=? x) && S x)
       /\ CUR_MAX_SIZE h <= Nat.max (CUR_MAX_SIZE g) (card N R + f)).
    apply pw_bind. apply (pw_for 0 N _ Inv); [lia| | |].
    - (* initially *)
      unfold Inv. split; [exact P2|]. split; [unfold g2; cbn [set_mem set_cur search_cur]; lia|]. split; [|split; [|split; [|split]]].
      + intros k Hk. unfold g2; cbn [set_mem set_cur edge_bits]. rewrite O2 by lia. apply HZ. fold sc. lia.
      + intros k Hk _. unfold g2; cbn [set_mem set_cur edge_bits]. apply O2. lia.
      + unfold g2; cbn [set_mem set_cur edge_bits]. apply (rep_frame (edge_bits g) m2 rp N R sc (2 * w)); auto. split; auto.
      + unfold g2; cbn [set_mem set_cur edge_bits]. eapply rep_ext; [apply (rep_frame m1 m2 sc N S (sc + w) w); auto; lia|]. auto.
      + unfold g2; cbn [set_mem set_cur CUR_MAX_SIZE]; lia.
    - (* step *)
      intros j [h u] Hj (I1 & I2 & I3 & I4 & I5 & I6 & I7).
      rewrite (bits_get_spec (edge_bits h) sc N _ _ j I6) by (auto; lia). cbn [bind].
      rewrite Nat.leb_refl. cbn [andb]. destruct (S j) eqn:Sj; cbn [negb].
      2:{ apply pw_ok. unfold Inv. repeat (split; [assumption|]). split; [|assumption].
          eapply rep_ext; [exact I6|]. intros x Hx. cbv beta. destruct (Nat.leb_spec j x), (Nat.leb_spec (Datatypes.S j) x); auto; [|lia].
          replace x with j by lia. rewrite Sj. auto. }
      destruct (prog_shape a nv g0 h mcs0 cur SH0 I1) as [mh SHh]. pose proof (sh_mem _ _ _ _ SHh) as MOKh.
      assert (LH : length (edge_bits h) = length (edge_bits g)) by (rewrite (prog_len h I1), (prog_len g P); auto).
      destruct (HSx j ltac:(lia) Sj) as (J1 & J2 & J3).
      change (velo (mkvert a mv cur)) with (off a cur). rewrite (sh_el _ _ _ _ SHh), (rd_el a nv HC) by lia. cbn [bind].
      apply pw_bind. eapply pw_of; [apply (bits_set_spec (edge_bits h) rp N R _ j MOKh I5); auto; lia|].
      intros n1 (A1 & A2 & A3). pose proof A3 as [A3l A3o].
      assert (B1 : rep n1 sc N (fun x => (j <=? x) && S x)) by (eapply rep_frame; eauto; lia).
      apply pw_bind. eapply pw_of; [apply (bits_reset_spec n1 sc N _ _ j A1 B1); auto; lia|].
      intros n2 (B2 & B3 & B4). pose proof B4 as [B4l B4o].
      apply pw_bind. eapply pw_of; [apply (bits_copy_data_spec n2 (sc + w) sc N _ (refer_from (sc + w) N) (refer_from sc N) B2 B3); auto; lia|].
      intros n3 (D1 & D2 & D3). pose proof D3 as [D3l D3o].
      rewrite (sh_vs _ _ _ _ SHh), rd_vert by (apply (nbr_lt a nv HC); auto; lia). cbn [bind].
      apply pw_bind. eapply pw_of; [apply (rec_filter_spec h mh mv _ (sc + w) j (fun x => negb (x =? j) && ((j <=? x) && S x)) n3 SHh); auto; try lia|].
      { intros x Hx E. cbv beta in E. apply andb_prop in E. destruct E as [E1 E2]. apply andb_prop in E2. destruct E2 as [E2 _].
        apply Nat.leb_le in E2. destruct (Nat.eqb_spec x j); [discriminate|lia]. }
      intros n4 (F1 & F2 & F3). pose proof F3 as [F3l F3o].
      set (S' := fun x => negb (x =? j) && ((j <=? x) && S x) && A j x) in *.
      set (R' := fun x => (x =? j) || R x) in *.
      assert (ON : forall k, ~ (rp <= k < rp + w) -> ~ (sc <= k < sc + 2 * w) -> nth k n4 0%N = nth k (edge_bits h) 0%N).
      { intros k H1 H2. rewrite F3o, D3o, B4o, A3o; auto; lia. }
      set (h1 := set_mem h n4).
      assert (Ph1 : prog h1 mcs0 cur).
      { unfold h1. rewrite set_mem_cur. apply prog_arena; auto; [lia|]. intros k Hk. apply ON; lia. }
      assert (RR : rep n4 rp N R').
      { refine (rep_frame n3 n4 rp N R' (sc + w) w _ F3 ltac:(lia)). refine (rep_frame n2 n3 rp N R' (sc + w) w _ D3 ltac:(lia)).
        refine (rep_frame n1 n2 rp N R' sc w _ B4 ltac:(lia)). exact A2. }
      assert (RC : rep n4 sc N (fun x => negb (x =? j) && ((j <=? x) && S x))).
      { refine (rep_frame n3 n4 sc N _ (sc + w) w _ F3 ltac:(lia)). refine (rep_frame n2 n3 sc N _ (sc + w) w _ D3 ltac:(lia)). exact B3. }
      assert (CS : card N S' <= card N S - 1).
      { pose proof (card_remove N S j ltac:(lia) Sj). assert (card N S' <= card N (fun i => negb (i =? j) && S i)); [|lia].
        apply card_le. intros i Hi E. unfold S' in E. apply andb_prop in E. destruct E as [E _]. apply andb_prop in E. destruct E as [E1 E2].
        apply andb_prop in E2. rewrite E1. tauto. }
      assert (S'in : forall x, S' x = true -> j < x /\ S x = true /\ A j x = true).
      { intros x E. unfold S' in E. apply andb_prop in E. destruct E as [E E3]. apply andb_prop in E. destruct E as [E1 E2].
        apply andb_prop in E2. destruct E2 as [E2 E4]. apply Nat.leb_le in E2. destruct (Nat.eqb_spec x j); [discriminate|]. repeat split; auto. lia. }
      apply pw_bind. eapply pw_mono.
      + apply (IH h1 (sc + w) rp R' S' u); auto; try (unfold h1; cbn [set_mem search_cur]; lia).
        * (* rooted *)
          destruct RT as [T1 T2]. split; [unfold R'; rewrite T1; apply orb_true_r|]. intros p Hp E. unfold R' in E.
          destruct (Nat.eqb_spec p j) as [->|]; auto.
        * intros p q Hp Hq Ep Eq NE. unfold R' in Ep, Eq.
          destruct (Nat.eqb_spec p j) as [->|], (Nat.eqb_spec q j) as [->|]; auto; try congruence; cbn [orb] in *.
          rewrite (padj_sym a nv HC) by auto. auto.
        * intros x Hx E. destruct (S'in x E) as (E1 & E2 & E3). destruct (HSx x Hx E2) as (E4 & E5 & E6). split; auto. split.
          -- unfold R'. rewrite E5. destruct (Nat.eqb_spec x j); [lia|auto].
          -- intros p Hp Ep. unfold R' in Ep. destruct (Nat.eqb_spec p j) as [->|]; auto.
        * unfold h1; cbn [set_mem search_cur edge_bits]. rewrite I2. intros k Hk. rewrite ON by lia. apply I3. auto.
        * unfold h1; cbn [set_mem search_cur edge_bits]. rewrite I2. replace (length n4) with (length (edge_bits g)) by lia.
          etransitivity; [|exact SP2]. apply Nat.add_le_mono_l, Nat.mul_le_mono_l. auto.
      + intros [h2 u2] [Q1 Q2 Q3 Q4 Q5 Q6]. cbn [fst snd] in *. change (search_cur h1) with (search_cur h) in *. rewrite I2 in *.
        change (edge_bits h1) with n4 in Q4. change (CUR_MAX_SIZE h1) with (CUR_MAX_SIZE h) in Q6.
        apply pw_bind. eapply pw_of; [apply (bits_reset_spec (edge_bits h2) rp N R' _ j (pr_mem _ _ _ _ _ _ Q1) Q5); auto; lia|].
        intros n5 (X1 & X2 & X3). pose proof X3 as [X3l X3o]. apply pw_ok. unfold Inv. cbn [set_mem search_cur edge_bits CUR_MAX_SIZE].
        split; [|split; [|split; [|split; [|split; [|split]]]]]; auto.
        * rewrite set_mem_cur. apply prog_arena; auto. intros k Hk. apply X3o. lia.
        * intros k Hk. rewrite X3o by lia. apply Q3. auto.
        * intros k Hk1 Hk2. rewrite X3o, Q4, ON by (auto; lia). apply I4; auto.
        * eapply rep_ext; [exact X2|]. intros x Hx. cbv beta. unfold R'. destruct (Nat.eqb_spec x j) as [->|]; auto.
        * refine (rep_frame (edge_bits h2) n5 sc N _ rp w _ X3 ltac:(lia)).
          apply (rep_ext _ _ _ (fun x => negb (x =? j) && ((j <=? x) && S x))).
          -- destruct RC as [RC1 RC2]. split; [rewrite (prog_len h2 Q1); rewrite <- (prog_len h1 Ph1); exact RC1|].
             intros i Hi. rewrite <- RC2 by auto. unfold wbit. pose proof (words_lt64 _ i Hi). rewrite Q4; auto; lia.
          -- intros x Hx. cbv beta. destruct (Nat.eqb_spec x j) as [->|]; cbn [negb andb].
             ++ destruct (Nat.leb_spec (Datatypes.S j) j); [lia|auto].
             ++ destruct (Nat.leb_spec j x), (Nat.leb_spec (Datatypes.S j) x); auto; lia.
        * unfold R' in Q6. rewrite card_add in Q6 by (auto; lia). lia.
    - (* after the loop *)
      intros [h u] (I1 & I2 & I3 & I4 & I5 & I6 & I7).
      assert (LH : length (edge_bits h) = length (edge_bits g)) by (rewrite (prog_len h I1), (prog_len g P); auto).
      apply pw_bind. eapply pw_of; [apply clear_memory_spec; [apply (pr_mem _ _ _ _ _ _ I1)|rewrite I2; lia]|].
      rewrite I2. intros h' (m5 & -> & M1 & M2 & M3). replace (sc + 2 * w - 2 * w) with sc in * by lia. destruct M2 as [M2l M2].
      apply pw_ok. cbn [fst snd]. split; cbn [set_cur set_mem edge_bits search_cur CUR_MAX_SIZE]; auto; try lia.
      + apply prog_arena; auto. intros k Hk. apply M2. lia.
      + intros k Hk. destruct (Nat.lt_ge_cases k (sc + 2 * w)); [apply M3; lia|]. rewrite M2 by lia. apply I3. auto.
      + intros k Hk1 Hk2. rewrite M2 by lia. apply I4; auto.
      + eapply rep_frame; [exact I5|split; [exact M2l|exact M2]|]. lia.
  Qed.

  Hypothesis HZ0 : zero_from (edge_bits g0) c0.
  Hypothesis HSP0 : c0 + 2 * w * bound a cur <= length (edge_bits g0).

  Lemma root_size D t : pw (rec_vertex_within D clk g0 cur t) (fun r => CUR_MAX_SIZE (fst r) <= Nat.max (CUR_MAX_SIZE g0) D).
  Proof.
    pose proof (len_pos a nv HS Hself cur Hc) as LP. pose proof (words_pos _ LP) as W.
    destruct (sp_spec a nv HS Hself cur Hc) as [S1 S2]. pose proof (block_end a nv cur Hc) as BE.
    unfold rec_vertex_within. rewrite (sh_vs _ _ _ _ SH0), rd_vert by auto. cbn [bind].
    change (vN (mkvert a (mcs0 cur) cur)) with N. change (vspos (mkvert a (mcs0 cur) cur)) with (sp a cur). cbv zeta.
    assert (SPX : c0 + 2 * w + 2 * w * card N (candp a cur) <= length (edge_bits g0)).
    { rewrite (bound_card a), Nat.mul_succ_r in HSP0. lia. }
    assert (SP : c0 + 2 * w <= length (edge_bits g0)) by (etransitivity; [apply Nat.le_add_r|exact SPX]).
    rewrite load_memory_ok by lia. cbn [bind].
    rewrite load_memory_ok by (cbn [set_cur search_cur edge_bits]; lia). cbn [bind set_cur search_cur edge_bits].
    assert (Z1 : rep (edge_bits g0) c0 N (fun _ => false)) by (apply rep_zero; [lia|intros; apply HZ0; lia]).
    assert (Z2 : rep (edge_bits g0) (c0 + w) N (fun _ => false)) by (apply rep_zero; [lia|intros; apply HZ0; lia]).
    apply pw_bind. eapply pw_of; [apply (bits_set_spec (edge_bits g0) c0 N _ _ (sp a cur) (sh_mem _ _ _ _ SH0) Z1); auto|].
    intros m1 (K1 & K2 & K3). pose proof K3 as [K3l K3o].
    match goal with |- context [root_cands ?G _ _] => set (g1 := G) end.
    assert (SH1 : shape a nv g1 mcs0) by (destruct SH0; split; auto).
    apply pw_bind. eapply pw_of; [apply (root_cands_spec a nv HC g1 mcs0 cur (mcs0 cur) (c0 + w) SH1 Hc)|].
    { eapply rep_frame; [exact Z2|exact K3|lia]. }
    change (edge_bits g1) with m1. intros [m2 pot] (L1 & L2 & L3 & EPOT). cbn [fst snd] in L1, L2, L3, EPOT. subst pot. pose proof L3 as [L3l L3o].
    match goal with |- context [if CUR_MAX_SIZE ?G <? _ then _ else _] => set (g2 := G) end.
    assert (P2 : prog g2 mcs0 cur).
    { change g2 with (set_cur (set_mem g0 m2) (c0 + w + w)). apply prog_arena; auto; [apply prog_refl; auto|congruence|].
      intros k Hk. rewrite L3o, K3o; auto; lia. }
    assert (Z3 : zero_from m2 (c0 + 2 * w)).
    { intros k Hk. rewrite L3o, K3o by lia. apply HZ0. lia. }
    assert (END : forall h (u : nat), CUR_MAX_SIZE h <= Nat.max (CUR_MAX_SIZE g0) D -> memok (edge_bits h) -> search_cur h = c0 + w + w -> length (edge_bits h) = length (edge_bits g0) ->
      pw (g <- clear_memory h (2 * w);; Ok (g, u)) (fun r => CUR_MAX_SIZE (fst r) <= Nat.max (CUR_MAX_SIZE g0) D)).
    { intros h u HM MO EC EL. apply pw_bind. eapply pw_of; [apply clear_memory_spec; [exact MO|lia]|]. intros h' (m5 & -> & _). apply pw_ok. exact HM. }
    apply pw_bind. destruct (Nat.ltb_spec (CUR_MAX_SIZE g2) (bound a cur)) as [HB|HB].
    2:{ apply pw_ok. apply END; [change (CUR_MAX_SIZE g2) with (CUR_MAX_SIZE g0); lia|exact L1|reflexivity|change (edge_bits g2) with m2; lia]. }
    set (R := fun x => (x =? sp a cur) || false).
    assert (CR : card N R = 1).
    { unfold R. rewrite card_add by auto. rewrite (proj2 (card_zero N (fun _ => false))); auto. }
    eapply pw_mono; [apply (rec_deep (mcs0 cur) D g2 (c0 + w) c0 R (candp a cur) t)|]; auto.
    - change (edge_bits g2) with m2. eapply rep_frame; [exact K2|exact L3|lia].
    - split; [unfold R; rewrite Nat.eqb_refl; auto|]. intros p Hp E. unfold R in E. destruct (Nat.eqb_spec p (sp a cur)); auto. discriminate.
    - intros p q Hp Hq Ep Eq NE. unfold R in Ep, Eq. destruct (Nat.eqb_spec p (sp a cur)), (Nat.eqb_spec q (sp a cur)); try discriminate. congruence.
    - intros x Hx E. split; auto. split.
      + unfold R. destruct (Nat.eqb_spec x (sp a cur)) as [->|]; auto. rewrite (candp_sp a nv HS Hself cur Hc) in E. discriminate.
      + intros p Hp Ep. unfold R in Ep. destruct (Nat.eqb_spec p (sp a cur)) as [->|]; [|discriminate]. apply (padj_root a nv HC); auto.
    - lia.
    - change (search_cur g2) with (c0 + w + w). lia.
    - change (search_cur g2) with (c0 + w + w). replace (c0 + w + w) with (c0 + 2 * w) by lia. exact Z3.
    - change (search_cur g2) with (c0 + w + w). change (edge_bits g2) with m2. replace (c0 + w + w) with (c0 + 2 * w) by lia. lia.
    - intros [h u] [Q1 Q2 Q3 Q4 Q5 Q6]. cbn [fst] in *. rewrite CR in Q6. change (CUR_MAX_SIZE g2) with (CUR_MAX_SIZE g0) in Q6.
      apply END; [lia|apply (pr_mem _ _ _ _ _ _ Q1)|rewrite Q2; reflexivity|apply (prog_len h Q1)].
  Qed.

  Lemma root_less D t : okle (rec_vertex_within D clk g0 cur t) (rec_process_vertex clk g0 cur t).
  Proof.
    destruct (Nat.le_gt_cases (S N) D) as [L|L].
    - rewrite (root_within a nv cur g0 mcs0 clk HC Hc SH0 He HZ0 HSP0 D); [apply okle_refl|]. intros K _ _. pose proof (card_bound N K). lia.
    - unfold rec_vertex_within, rec_process_vertex. rewrite (sh_vs _ _ _ _ SH0), rd_vert by auto. cbn [bind].
      change (vN (mkvert a (mcs0 cur) cur)) with N. cbv zeta. apply okle_bind. intros [? ?]. apply okle_bind. intros [? ?]. apply okle_bind. intros ?.
      apply okle_bind. intros [? ?]. apply okle_bind2; [|intros [? ?]; apply okle_refl]. destruct (_ <? _); [|apply okle_refl]. apply rec_search_more. lia.
  Qed.
End Deep.

(** ** The whole search *)
Lemma pw_okle {A} (o o' : outcome A) (P Q : A -> Prop) : pw o P -> okle o o' -> wp o' Q -> pw o (fun x => P x /\ o' = Ok x /\ Q x).
Proof. destruct o as [x| |]; cbn; auto. intros H L W. pose proof (L x eq_refl) as E. rewrite E in *. auto. Qed.

Lemma loopN_both {S R} fuel (F F' : S -> outcome (step S R)) (I : S -> Prop) (Q : R -> Prop) s : I s ->
  (forall s, I s -> pw (F s) (fun r => F' s = Ok r /\ match r with Cont s' => I s' | Done x => Q x end)) ->
  pw (loopN fuel F s) (fun r => Q r /\ loopN fuel F' s = Ok r).
Proof.
  intros HI W. revert s HI. induction fuel as [|f IH]; intros s HI; cbn [loopN]; [exact Logic.I|].
  apply pw_bind. eapply pw_mono; [apply (W s HI)|]. intros r [E H]. rewrite E. cbn [bind]. destruct r as [s'|x]; [apply IH; exact H|apply pw_ok; auto].
Qed.

Section Gra.
  Variables (a : pairs) (n : nat) (adj : nat -> nat -> Prop).
  Hypothesis GR : gra a n adj.
  Notation nv := (n + 1).
  Let HC := gra_ctx a n adj GR.
  Variable D : nat.

  Lemma vertex_both clk g mcs cur t : good a nv g mcs -> cur < nv ->
    pw (rec_vertex_within D clk g cur t) (fun r => CUR_MAX_SIZE (fst r) <= Nat.max (CUR_MAX_SIZE g) D
      /\ rec_process_vertex clk g cur t = Ok r /\ exists mcs', good a nv (fst r) mcs').
  Proof.
    intros G Hc. destruct (good_room_s a nv g mcs _ cur (proj1 G) Hc) as [R1 R2]. specialize (R2 eq_refl).
    apply pw_okle; [apply (root_size a nv cur g mcs clk HC Hc (go_shape _ _ _ _ _ (proj1 G)) (go_eb _ _ _ _ _ (proj1 G)) (proj2 G) R2)
      |apply (root_less a nv cur g mcs clk HC Hc (go_shape _ _ _ _ _ (proj1 G)) (go_eb _ _ _ _ _ (proj1 G)) (proj2 G) R2)|].
    eapply wp_mono; [apply (rec_step a nv HC clk g mcs cur t eq_refl G Hc)|]. intros r (_ & m' & G' & _). eauto.
  Qed.

  Lemma graph_both clk start g mcs : good a nv g mcs ->
    pw (rec_graph_within D clk start g) (fun r => CUR_MAX_SIZE (fst r) <= Nat.max (CUR_MAX_SIZE g) D /\ rec_process_graph clk start g = Ok r).
  Proof.
    intros G. unfold rec_graph_within, rec_process_graph. pose proof (go_loc _ _ _ _ _ (proj1 G)) as L.
    apply pw_bind. eapply pw_mono; [apply (vertex_both clk g mcs _ 0 G L)|]. intros [g1 t1] (Z1 & E1 & mcs1 & G1). cbn [fst] in *. rewrite E1. cbn [bind].
    apply (loopN_both _ _ _ (fun s => CUR_MAX_SIZE (fst (fst s)) <= Nat.max (CUR_MAX_SIZE g) D /\ exists mcs, good a nv (fst (fst s)) mcs)
             (fun r => CUR_MAX_SIZE (fst r) <= Nat.max (CUR_MAX_SIZE g) D)); [cbn [fst]; eauto|].
    intros [[h i] t] (Z & mh & H). cbn [fst] in *. rewrite (sh_nv _ _ _ _ (go_shape _ _ _ _ _ (proj1 H))).
    destruct (Nat.ltb_spec i nv) as [Hi|]; [|apply pw_ok; cbn [fst]; auto].
    rewrite (good_rd a nv h mh i H Hi). cbn [bind]. destruct (_ || _); [apply pw_ok; cbn [fst]; eauto|]. destruct (clk t); [apply pw_ok; cbn [fst]; auto|].
    apply pw_bind. eapply pw_mono; [apply (vertex_both clk h mh i (S t) H Hi)|]. intros [g2 t2] (Z2 & E2 & m2 & G2). cbn [fst] in *. rewrite E2. cbn [bind].
    apply pw_ok. cbn [fst]. split; [reflexivity|]. split; [lia|eauto].
  Qed.
End Gra.

Lemma depth_needed p n adj e lb ub cont q c D : made p n adj -> has_edge adj -> storage_live p -> lawful e lb -> ~ untimed e ->
  get_max_clique e p lb ub false true cont = Ok (q, Ret c) -> 2 <= length c -> D < length c -> get_max_within D e p lb ub false true cont = OutOfFuel.
Proof.
  intros M HE LV LA NU E L2 LD. destruct (made_hinv p n adj M HE LV) as (a & cap & m & g & GR & B & -> & _ & G & Z & _ & S1 & _).
  pose proof (has_edge_n a n adj GR HE) as Hn.
  pose proof (get_core a n adj GR e g (bound a) m 0 false lb ub false true cont LA Hn G Z) as C. rewrite E in C.
  destruct C as (g' & mcs' & cur' & c' & EQ & G' & Z' & C' & CC & S & ER & _). cbn [fst snd] in EQ, ER.
  assert (c' = c) as -> by (destruct (length c' <? lb); congruence).
  assert (KEY : lb < length c /\ CUR_MAX_SIZE g' = length c).
  { pose proof (go_loc _ _ _ _ _ (proj1 G')) as GL. destruct (ca_best _ _ _ _ C') as [(X1 & X2 & X3)|(X1 & X2)].
    - exfalso. cbn [prepared set_limit set_best CUR_MAX_SIZE CUR_MAX_LOC edge_bits] in *. assert (length c = 1); [|lia].
      eapply stores_fun; [exact S|]. rewrite X2 in *. eapply stores_mem; [exact X3|lia|exact (ca_len _ _ _ _ C')|exact S1].
    - cbn [prepared set_limit set_best CUR_MAX_SIZE] in X1. rewrite (stores_fun _ _ _ _ _ S X2). lia. }
  pose proof (graph_both a n adj GR D) as GB. 
  rewrite get_unfold in E by exact Hn.
  assert (EW : get_max_within D e (mkP (Some g) n m 0 false) lb ub false true cont =
    bind (find_max_within D e (prepared g lb ub) 0 false true)
      (fun '(g', cur) => '(g', ans) <- stored_clique g' (CUR_MAX_LOC g');;
         if length ans <? lb then Ok (mkP (Some g') n m cur (n <=? cur), Raise EBounds)
         else Ok (mkP (Some g') n m cur (n <=? cur), Ret ans))).
  { unfold get_max_within, loaded. cbn [p_cur p_G p_nvert p_nedges]. destruct (Nat.eqb_spec n 0) as [|_]; [lia|]. unfold prepared.
    cbn [set_best CLIQUE_LIMIT Nat.eqb negb]. rewrite andb_false_r.
    replace (if CUR_MAX_SIZE g <? lb then lb else CUR_MAX_SIZE g) with (Nat.max (CUR_MAX_SIZE g) lb) by (destruct (Nat.ltb_spec (CUR_MAX_SIZE g) lb); lia).
    replace (if ub <? CLIQUE_LIMIT g then ub else CLIQUE_LIMIT g) with (Nat.min ub (CLIQUE_LIMIT g)) by (destruct (Nat.ltb_spec ub (CLIQUE_LIMIT g)); lia).
    destruct cont; reflexivity. }
  rewrite EW. cbn [Nat.eqb negb] in E. rewrite andb_false_r in E. replace (if cont then 0 else 0) with 0 in E by (destruct cont; reflexivity).
  unfold find_max_within, find_max_cliques in *. cbn [bind] in *. destruct (clock e) as [clk|] eqn:EK; [|exfalso; apply NU; exact EK].
  specialize (GB clk 0 (prepared g lb ub) (bound a) (prepared_good a n g _ lb ub G)).
  destruct (rec_graph_within D clk 0 (prepared g lb ub)) as [[g1 i]| |]; cbn [pw] in GB; [|destruct GB|reflexivity].
  exfalso. destruct GB as [GZ GE]. rewrite GE in E. cbn [bind fst] in *. 
  destruct (stored_clique g1 (CUR_MAX_LOC g1)) as [[g2 ans]| |] eqn:ES; cbn [bind] in E; try discriminate.
  assert (SZ : CUR_MAX_SIZE g2 = CUR_MAX_SIZE g1).
  { unfold stored_clique in ES. destruct (rd _ _); cbn [bind] in ES; try discriminate. destruct (live g1); cbn [bind] in ES; try discriminate.
    destruct (bits_subset _ _ _ _) as [[? ?]| |]; cbn [bind] in ES; try discriminate. injection ES as <- _. reflexivity. }
  assert (g2 = g') as -> by (destruct (length ans <? lb); [discriminate|congruence]).
  cbn [prepared set_limit set_best CUR_MAX_SIZE] in GZ. rewrite (b_max _ _ _ _ B) in GZ. lia.
Qed.
