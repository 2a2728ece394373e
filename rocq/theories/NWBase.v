(** NWBase: the search order of the node-weighted graph, its constructor, and the operations its searches share. *)
From Verif Require Import Base MBits MUtils MGraph MNW SpecBits BaseFacts BitsFacts SetFacts FindFacts SortFacts RowFacts ConstructFacts CardFacts SearchBase FrameFacts FrameInv NWSum.
Local Open Scope nat_scope.
Local Arguments Nat.sub : simpl never.
Local Arguments Nat.mul : simpl never.

(** The weights of the vertices and how sums are rounded. *)
Record wts : Type := mkwts { wf : nat -> Z; wrnd : Z -> Z }.
Coercion wf : wts >-> Funclass.

(** Degrees, the search order (degree, then number), the candidates of a root and its bound, as the machine computes them. *)
Definition pw (a : pairs) (wt : wts) (i p : nat) : Z := wt (nbr a i p).
Definition dgr (a : pairs) (wt : wts) (i : nat) : Z := rsum (wrnd wt) (rlen a i) (pw a wt i) (fun _ => true).
Definition wbef (dg : nat -> Z) (i e : nat) : bool := (dg i <? dg e)%Z || ((dg i =? dg e)%Z && (i <? e)).
Definition wcand (a : pairs) (wt : wts) (i p : nat) : bool := wbef (dgr a wt) i (nbr a i p).
Definition wbnd (a : pairs) (wt : wts) (i : nat) : Z :=
  rsum (wrnd wt) (rlen a i) (pw a wt i) (fun p => (p =? sp a i) || wcand a wt i p).

(** No sum of weights within a row is changed by rounding. *)
Definition wexact (a : pairs) (wt : wts) : Prop := forall i n P, n <= rlen a i -> wrnd wt (wsum n (pw a wt i) P) = wsum n (pw a wt i) P.

Lemma wexact_rsum a wt i n P : wexact a wt -> n <= rlen a i -> rsum (wrnd wt) n (pw a wt i) P = wsum n (pw a wt i) P.
Proof. intros EX H. apply rsum_exact. intros m Q Hm. apply EX. lia. Qed.

Lemma wexact_dgr a wt i : wexact a wt -> dgr a wt i = wsum (rlen a i) (pw a wt i) (fun _ => true).
Proof. intros EX. apply wexact_rsum; auto. Qed.

(** A sum over two disjoint sets of positions. *)
Lemma wexact_or a wt i P Q : wexact a wt -> (forall x, x < rlen a i -> P x = true -> Q x = true -> False) ->
  wrnd wt (wsum (rlen a i) (pw a wt i) P + wsum (rlen a i) (pw a wt i) Q) = (wsum (rlen a i) (pw a wt i) P + wsum (rlen a i) (pw a wt i) Q)%Z.
Proof. intros EX D. rewrite <- wsum_or by auto. apply EX. auto. Qed.

Lemma wexact_list a wt i l : wexact a wt -> NoDup l -> (forall x, In x l -> x < rlen a i) ->
  wrnd wt (zsum (map (pw a wt i) l)) = zsum (map (pw a wt i) l).
Proof. intros EX ND H. rewrite <- (wsum_list (rlen a i)) by auto. apply EX. auto. Qed.

Lemma wexact_with a wt i S l : wexact a wt -> NoDup l -> (forall x, In x l -> x < rlen a i) ->
  (forall x, x < rlen a i -> S x = true -> ~ In x l) ->
  wrnd wt (wsum (rlen a i) (pw a wt i) S + zsum (map (pw a wt i) l)) = (wsum (rlen a i) (pw a wt i) S + zsum (map (pw a wt i) l))%Z.
Proof.
  intros EX ND H D. rewrite <- (wsum_list (rlen a i)) by auto. apply wexact_or; auto. intros x Hx E1 E2. apply inb_in in E2. exact (D x Hx E1 E2).
Qed.

Section Order.
  Variable dg : nat -> Z.

  Lemma wbef_irrefl i : wbef dg i i = false.
  Proof. unfold wbef. rewrite Z.ltb_irrefl, Nat.ltb_irrefl, andb_false_r. auto. Qed.

  Lemma wbef_total i e : i <> e -> wbef dg i e = true \/ wbef dg e i = true.
  Proof.
    intros NE. unfold wbef. rewrite !orb_true_iff, !andb_true_iff, !Z.ltb_lt, !Z.eqb_eq, !Nat.ltb_lt. lia.
  Qed.

  Lemma wbef_trans i j k : wbef dg i j = true -> wbef dg j k = true -> wbef dg i k = true.
  Proof. unfold wbef. rewrite !orb_true_iff, !andb_true_iff, !Z.ltb_lt, !Z.eqb_eq, !Nat.ltb_lt. lia. Qed.
End Order.

Section Ctx.
  Variables (a : pairs) (nv : nat) (wt : wts).
  Hypothesis HC : gctx a nv.
  Let HS := gc_sorted _ _ HC.
  Let Hself := gc_self _ _ HC.
  Let Hb := gc_b _ _ HC.
  Notation dg := (dgr a wt).
  Notation wcand := (wcand a wt).
  Notation pw := (pw a wt).
  Notation rnd := (wrnd wt).

  Lemma wcand_sp i : i < nv -> wcand i (sp a i) = false.
  Proof. intros Hi. destruct (sp_spec a nv HS Hself i Hi) as [S1 S2]. unfold NWBase.wcand. rewrite S2. apply wbef_irrefl. Qed.

  Lemma wcand_lt i j : i < nv -> j < sp a i -> (dg (nbr a i j) <=? dg i)%Z = negb (wcand i j).
  Proof.
    intros Hi Hj. destruct (sp_spec a nv HS Hself i Hi) as [S1 S2]. unfold NWBase.wcand, wbef.
    pose proof (nbr_mono a nv HC i j (sp a i) ltac:(lia)) as L. rewrite S2 in L.
    replace (i <? nbr a i j) with false by (symmetry; apply Nat.ltb_ge; lia). rewrite andb_false_r, orb_false_r. apply Z.leb_antisym.
  Qed.

  Lemma wcand_gt i j : i < nv -> sp a i < j < rlen a i -> (dg (nbr a i j) <? dg i)%Z = negb (wcand i j).
  Proof.
    intros Hi Hj. destruct (sp_spec a nv HS Hself i Hi) as [S1 S2]. unfold NWBase.wcand, wbef.
    pose proof (nbr_mono a nv HC i (sp a i) j ltac:(lia)) as L. rewrite S2 in L.
    replace (i <? nbr a i j) with true by (symmetry; apply Nat.ltb_lt; lia). rewrite andb_true_r.
    destruct (Z.ltb_spec (dg (nbr a i j)) (dg i)), (Z.ltb_spec (dg i) (dg (nbr a i j))), (Z.eqb_spec (dg i) (dg (nbr a i j))); cbn; auto; lia.
  Qed.

  (** ** The constructor *)
  Lemma nw_degrees_spec g mcs ws : edge_list g = map snd a -> vertices g = verts a nv mcs -> n_vert g = nv ->
    (forall i, i < nv -> nth_error ws i = Some (wt i)) ->
    nw_degrees rnd g ws = Ok (map wt (seq 0 nv), map dg (seq 0 nv)).
  Proof.
    intros E1 E2 E3 HW.
    assert (G : wp (nw_degrees rnd g ws) (fun r => r = (map wt (seq 0 nv), map dg (seq 0 nv)))).
    { unfold nw_degrees. rewrite E3.
      apply (wp_for 0 nv _ (fun i r => r = (map wt (seq 0 i), map dg (seq 0 i)))); [lia|reflexivity| |auto].
      intros i s Hi ->. rewrite E2, rd_vert by lia. cbn [bind mkvert vN velo].
      apply wp_bind. eapply (wp_for 0 (rlen a i) _ (fun j d => d = rsum rnd j (pw i) (fun _ => true))); [lia|reflexivity| |].
      - intros j d Hj ->. rewrite E1, (rd_el a nv HC) by lia. cbn [bind].
        rewrite (rd_some ws (nbr a i j) (wt (nbr a i j))) by (apply HW, (nbr_lt a nv HC); lia). cbn [bind]. apply wp_ok.
        reflexivity.
      - intros d ->. rewrite (rd_some ws i (wt i)) by (apply HW; lia). cbn [bind]. apply wp_ok.
        rewrite !mapseq_S. reflexivity. }
    apply wp_iff in G. destruct G as (r & -> & ->). auto.
  Qed.

  Lemma nw_bound_spec g mcs i : edge_list g = map snd a -> vertices g = verts a nv mcs -> i < nv ->
    nw_bound rnd g (map wt (seq 0 nv)) (map dg (seq 0 nv)) i = Ok (wbnd a wt i).
  Proof.
    intros E1 E2 Hi. destruct (sp_spec a nv HS Hself i Hi) as [S1 S2]. set (Q := fun p => (p =? sp a i) || wcand i p).
    assert (G : wp (nw_bound rnd g (map wt (seq 0 nv)) (map dg (seq 0 nv)) i) (fun b => b = wbnd a wt i)).
    { unfold nw_bound. rewrite E2, rd_vert by lia. cbn [bind mkvert vN velo vspos].
      rewrite rd_mapseq by auto. cbn [bind]. apply wp_bind.
      eapply (wp_for 0 (sp a i) _ (fun j s => s = rsum rnd j (pw i) Q)); [lia|reflexivity| |].
      - intros j s Hj ->. rewrite E1, (rd_el a nv HC) by lia. cbn [bind].
        rewrite rd_mapseq by (apply (nbr_lt a nv HC); lia). cbn [bind].
        rewrite (Z.ltb_antisym (dg (nbr a i j))), (wcand_lt i j Hi) by lia. rewrite negb_involutive, rsum_S.
        assert (EQ : Q j = wcand i j) by (unfold Q; destruct (Nat.eqb_spec j (sp a i)); [lia|reflexivity]). rewrite EQ.
        destruct (wcand i j); [|apply wp_ok; reflexivity].
        rewrite rd_mapseq by (apply (nbr_lt a nv HC); lia). cbn [bind]. apply wp_ok. reflexivity.
      - intros s ->.
        eapply (wp_for (sp a i) (rlen a i) _ (fun j s => s = rsum rnd j (pw i) Q)); [lia|reflexivity| |auto].
        intros j s Hj ->. rewrite E1, (rd_el a nv HC) by lia. cbn [bind].
        rewrite rd_mapseq by (apply (nbr_lt a nv HC); lia). cbn [bind]. rewrite rsum_S.
        assert (EQ : Q j = (j =? sp a i) || wcand i j) by reflexivity. rewrite EQ.
        destruct (Nat.eqb_spec j (sp a i)) as [->|NE]; cbn [orb].
        * rewrite S2, Z.leb_refl by auto. rewrite rd_mapseq by auto. cbn [bind]. apply wp_ok. change (pw i (sp a i)) with (wt (nbr a i (sp a i))). rewrite S2. reflexivity.
        * rewrite (Z.leb_antisym (dg (nbr a i j))), (wcand_gt i j Hi) by lia. rewrite negb_involutive.
          destruct (wcand i j); [|apply wp_ok; reflexivity].
          rewrite rd_mapseq by (apply (nbr_lt a nv HC); lia). cbn [bind]. apply wp_ok. reflexivity. }
    apply wp_iff in G. destruct G as (r & -> & ->). auto.
  Qed.

  Lemma wbnd_exact i : wexact a wt -> i < nv -> wbnd a wt i = (wt i + wsum (rlen a i) (pw i) (wcand i))%Z.
  Proof.
    intros EX Hi. destruct (sp_spec a nv HS Hself i Hi) as [S1 S2]. unfold wbnd. rewrite wexact_rsum by auto.
    rewrite wsum_add by (auto; apply wcand_sp; auto). unfold NWBase.pw at 1. rewrite S2. reflexivity.
  Qed.

  (** The bound computed from the candidates and the root. *)
  Lemma wbnd_cands i : wexact a wt -> i < nv -> rnd (rsum rnd (rlen a i) (pw i) (wcand i) + wt i) = wbnd a wt i.
  Proof.
    intros EX Hi. rewrite wexact_rsum by auto. rewrite (wbnd_exact i EX Hi). destruct (sp_spec a nv HS Hself i Hi) as [S1 S2].
    pose proof (wexact_with a wt i (wcand i) [sp a i] EX) as E. cbn [map zsum fold_right] in E. unfold NWBase.pw at 2 4 in E. rewrite S2, Z.add_0_r in E.
    rewrite E; [lia| | |].
    - constructor; [intros []|constructor].
    - intros x [<-|[]]. auto.
    - intros x Hx Ex [<-|[]]. rewrite wcand_sp in Ex by auto. discriminate.
  Qed.

  Lemma nw_bounds_spec g mcs : edge_list g = map snd a -> vertices g = verts a nv mcs -> n_vert g = nv ->
    wp (nw_bounds rnd g (map wt (seq 0 nv)) (map dg (seq 0 nv)))
       (fun '(ms, lim, loc) => ms = map (wbnd a wt) (seq 0 nv) /\ (forall i, i < nv -> (wbnd a wt i <= lim)%Z)
          /\ ((lim = 0%Z /\ loc = 0) \/ (loc < nv /\ wbnd a wt loc = lim /\ (0 < lim)%Z))).
  Proof.
    intros E1 E2 E3. unfold nw_bounds. rewrite E3.
    apply (wp_for 0 nv _ (fun k '(ms, lim, loc) => ms = map (wbnd a wt) (seq 0 k) /\ (forall i, i < k -> (wbnd a wt i <= lim)%Z)
          /\ ((lim = 0%Z /\ loc = 0) \/ (loc < k /\ wbnd a wt loc = lim /\ (0 < lim)%Z)))); [lia| | |auto].
    - split; [reflexivity|]. split; [lia|auto].
    - intros k [[ms lim] loc] Hk (I1 & I2 & I3). rewrite (nw_bound_spec g mcs k E1 E2) by lia. cbn [bind].
      assert (0 <= lim)%Z by (destruct I3 as [[-> _]|(_ & _ & ?)]; lia).
      destruct (Z.ltb_spec lim (wbnd a wt k)); apply wp_ok; rewrite mapseq_S, I1; split; auto; split.
      + intros i Hi. destruct (Nat.eq_dec i k) as [->|]; [lia|]. specialize (I2 i ltac:(lia)). lia.
      + right. split; [lia|]. split; auto. lia.
      + intros i Hi. destruct (Nat.eq_dec i k) as [->|]; [lia|]. apply I2. lia.
      + destruct I3 as [?|(? & ? & ?)]; auto.
  Qed.

  (** ** Marking the root's candidates *)
  Definition bufok (cur : nat) (buf : list Z) : Prop :=
    forall x, x < rlen a cur -> wcand cur x = true -> nth_error buf x = Some (pw cur x).

  Lemma nw_root_cands_spec W mcs cur mv cp buf D : shape a nv (w_g W) mcs -> cur < nv ->
    w_wt W = map wt (seq 0 nv) -> w_deg W = map dg (seq 0 nv) -> length buf = D -> rlen a cur <= D ->
    rep (edge_bits (w_g W)) cp (rlen a cur) (fun _ => false) ->
    wp (nw_root_cands rnd W cur (mkvert a mv cur) (refer_from cp (rlen a cur)) buf)
       (fun '(m, buf', pot) => memok m /\ rep m cp (rlen a cur) (wcand cur)
                 /\ same_out (edge_bits (w_g W)) m cp (words (rlen a cur)) /\ length buf' = D /\ bufok cur buf'
                 /\ pot = rsum rnd (rlen a cur) (pw cur) (wcand cur)).
  Proof.
    intros SH Hc EW ED HL HD HR. destruct (sp_spec a nv HS Hself cur Hc) as [S1 S2].
    set (N := rlen a cur) in *.
    set (Inv := fun i (s : list BinNums.N * list Z * Z) => let '(m, buf, pot) := s in
      memok m /\ rep m cp N (fun x => (x <? i) && wcand cur x) /\ same_out (edge_bits (w_g W)) m cp (words N) /\ length buf = D
      /\ (forall x, x < i -> wcand cur x = true -> nth_error buf x = Some (pw cur x)) /\ pot = rsum rnd i (pw cur) (wcand cur)).
    assert (ST : forall strict lo hi s, lo <= hi <= N -> (strict = true -> hi <= sp a cur) -> (strict = false -> sp a cur < lo) ->
      Inv lo s -> wp (nw_root_part rnd W (mkvert a mv cur) (dg cur) (refer_from cp N) strict lo hi s) (Inv hi)).
    { intros strict lo hi s Hl H1 H2 I0. unfold nw_root_part. apply (wp_for lo hi _ Inv); auto; try lia. clear s I0.
      intros i [[m b] pot] Hi (I1 & I2 & I3 & I4 & I5 & I6).
      cbn [mkvert velo]. rewrite (sh_el _ _ _ _ SH), (rd_el a nv HC) by (fold N; lia). cbn [bind].
      rewrite ED, rd_mapseq by (apply (nbr_lt a nv HC); fold N; lia). cbn [bind].
      assert (C : (if strict then dg (nbr a cur i) <=? dg cur else dg (nbr a cur i) <? dg cur)%Z = negb (wcand cur i)).
      { destruct strict; [apply wcand_lt|apply wcand_gt]; auto; fold N; lia. }
      rewrite C. destruct (wcand cur i) eqn:EC; cbn [negb].
      - apply wp_bind. eapply wp_mono; [apply (bits_set_spec m cp N _ _ i I1 I2); auto; lia|].
        intros m' (M1 & M2 & M3). rewrite EW, rd_mapseq by (apply (nbr_lt a nv HC); fold N; lia). cbn [bind].
        rewrite wr_ok by lia. cbn [bind]. apply wp_ok. unfold Inv. split; auto. split; [|split; [|split; [|split]]].
        + eapply rep_ext; [exact M2|]. intros x Hx. cbv beta.
          destruct (Nat.eqb_spec x i) as [->|].
          * destruct (Nat.ltb_spec i (S i)); [rewrite EC; auto|lia].
          * destruct (Nat.ltb_spec x i), (Nat.ltb_spec x (S i)); auto; lia.
        + eapply same_out_trans; eauto.
        + rewrite upd_length. auto.
        + intros x Hx Ex. rewrite nth_error_upd. destruct (Nat.eqb_spec i x) as [->|NE].
          * cbn [andb]. destruct (Nat.ltb_spec x (length b)); [reflexivity|lia].
          * cbn [andb]. apply I5; auto. lia.
        + rewrite rsum_S, EC, I6. reflexivity.
      - apply wp_ok. unfold Inv. split; auto. split; [|split; [|split; [|split]]]; auto.
        + eapply rep_ext; [exact I2|]. intros x Hx. cbv beta.
          destruct (Nat.ltb_spec x i), (Nat.ltb_spec x (S i)); auto; [lia|]. replace x with i by lia. rewrite EC. auto.
        + intros x Hx Ex. apply I5; auto. destruct (Nat.eq_dec x i) as [->|]; [congruence|lia].
        + rewrite rsum_S, EC, I6. reflexivity. }
    unfold nw_root_cands. rewrite ED, rd_mapseq by auto. cbn [bind]. apply wp_bind. cbn [mkvert vspos vN].
    eapply wp_mono; [apply (ST true 0 (sp a cur)); [lia|lia|discriminate|]|].
    { split; [apply (sh_mem _ _ _ _ SH)|]. split; [|split; [apply same_out_refl|split; auto; split; [lia|reflexivity]]].
      eapply rep_ext; [exact HR|]. intros x Hx. destruct (Nat.ltb_spec x 0); [lia|auto]. }
    intros [[m1 b1] p1] (I1 & I2 & I3 & I4 & I5 & I6).
    eapply wp_mono; [apply (ST false (sp a cur + 1) N); [lia|discriminate|lia|]|].
    { split; auto. split; [|split; [auto|split; auto; split]].
      - eapply rep_ext; [exact I2|]. intros x Hx. cbv beta.
        destruct (Nat.ltb_spec x (sp a cur)), (Nat.ltb_spec x (sp a cur + 1)); auto; [lia|].
        replace x with (sp a cur) by lia. rewrite (wcand_sp cur Hc). auto.
      - intros x Hx Ex. apply I5; auto. destruct (Nat.eq_dec x (sp a cur)) as [->|]; [rewrite wcand_sp in Ex by auto; discriminate|lia].
      - rewrite Nat.add_1_r, rsum_S, (wcand_sp cur Hc), I6. reflexivity. }
    intros [[m2 b2] p2] (J1 & J2 & J3 & J4 & J5 & J6). split; auto. split; [|split; auto; split; auto; split; auto].
    eapply rep_ext; [exact J2|]. intros x Hx. cbv beta. destruct (Nat.ltb_spec x N); [auto|lia].
  Qed.

  (** ** The scan for non-adjacent candidates *)
  Lemma nd_scan_spec g mcs cur cp S j mv mw nx buf : shape a nv g mcs -> cur < nv ->
    j < rlen a cur -> rep (edge_bits g) cp (rlen a cur) S ->
    (forall x, x < rlen a cur -> S x = true -> j < x) -> (forall x, x < rlen a cur -> S x = true -> wcand cur x = true) ->
    bufok cur buf ->
    ((j + 1 <= nx < rlen a cur /\ S nx = true /\ forall x, j + 1 <= x < nx -> S x = false)
      \/ (nx = rlen a cur /\ forall x, j + 1 <= x < rlen a cur -> S x = false)) ->
    nd_scan rnd g (mkvert a mv cur) (mkvert a mw (nbr a cur j)) (refer_from cp (rlen a cur)) buf nx (card (rlen a cur) S)
    = Ok (members (rlen a cur) (fun x => S x && negb (padj a cur j x)), card (rlen a cur) (inter a cur S j),
          rsum rnd (rlen a cur) (pw cur) (inter a cur S j)).
  Proof.
    intros SH Hc Hj HR Hgt Hcd HB Hnx. set (e := nbr a cur j) in *. set (N := rlen a cur) in *.
    set (B := fun x => S x && negb (padj a cur j x)).
    assert (He : e < nv) by (apply (nbr_lt a nv HC); auto).
    destruct (sp_spec a nv HS Hself e He) as [SP1 SP2].
    assert (Hnext : forall i x, j < i -> ((i <= x < N /\ S x = true /\ forall y, i <= y < x -> S y = false)
        \/ (x = N /\ forall y, i <= y < N -> S y = false)) -> i <= N -> i <= x <= N /\ (x < N -> S x = true) /\ forall y, i <= y < x -> S y = false).
    { intros i x Hi [(H1 & H2 & H3)|(H1 & H2)] HiN; [repeat split; auto; lia|]. subst x. repeat split; auto; lia. }
    assert (G : wp (nd_scan rnd g (mkvert a mv cur) (mkvert a mw e) (refer_from cp N) buf nx (card N S))
       (fun r => r = (members N B, card N (inter a cur S j), rsum rnd N (pw cur) (inter a cur S j)))).
    2:{ apply wp_iff in G. destruct G as (r & -> & ->). auto. }
    pose proof (card_split N S (padj a cur j)) as CS. change (fun i => S i && padj a cur j i) with (inter a cur S j) in CS. fold B in CS.
    unfold nd_scan.
    apply (wp_loopN _ _ (fun '(k, rem, cl, pot) => j < k <= N /\ (k < N -> S k = true) /\ rem = members k B
        /\ cl = card N S - card k B /\ pot = rsum rnd k (pw cur) (inter a cur S j))
        (fun '(k, rem, cl, pot) => N - k)).
    - destruct (Hnext (j + 1) nx ltac:(lia) Hnx ltac:(lia)) as (K1 & K2 & K3).
      assert (LOW : forall x, x < nx -> S x = false).
      { intros x Hx. destruct (S x) eqn:ES; auto. destruct (Nat.lt_ge_cases x (j + 1)).
        - pose proof (Hgt x ltac:(lia) ES). lia.
        - rewrite K3 in ES by lia. discriminate. }
      split; [lia|]. split; auto. split; [|split].
      + symmetry. transitivity (members 0 B); [|reflexivity]. apply members_prefix; [lia|].
        intros i Hi. unfold B. rewrite LOW by lia. auto.
      + replace (card nx B) with 0; [lia|]. symmetry. apply card_zero. intros i Hi. unfold B. rewrite LOW by lia. auto.
      + symmetry. apply rsum_zero. intros i Hi. unfold inter. rewrite LOW by lia. auto.
    - cbn [mkvert vN]. fold N. lia.
    - intros [[[k rem] cl] pot] (I1 & I2 & I3 & I4 & I5). cbn [mkvert vN velo vspos]. fold N.
      destruct (Nat.ltb_spec k N) as [Hk|Hk]; cbn [andb].
      destruct (Nat.eqb_spec cl 0) as [Hp|Hp]; cbn [negb].
      + (* nothing left *)
        apply wp_ok. pose proof (card_mono k N B ltac:(lia)) as CM.
        assert (C0 : card N (inter a cur S j) = 0) by lia. rewrite C0.
        assert (CB : card N B = card k B) by lia.
        assert (Z0 : forall i, i < N -> inter a cur S j i = false) by (apply card_zero; auto).
        assert (PF : forall i, k <= i < N -> B i = false).
        { intros i Hi. destruct (B i) eqn:EB; auto. exfalso.
          assert (card N B = card k B + card (N - k) (fun x => B (k + x))) as CC.
          { clear -Hk. replace N with (k + (N - k)) at 1 by lia. generalize (N - k). intros d. induction d as [|d IH].
            - rewrite Nat.add_0_r, card_0. lia.
            - rewrite Nat.add_succ_r, !card_S, IH. lia. }
          assert (0 < card (N - k) (fun x => B (k + x))); [|lia]. apply card_pos. exists (i - k). split; [lia|].
          replace (k + (i - k)) with i by lia. auto. }
        f_equal; [f_equal|].
        * rewrite I3. symmetry. apply members_prefix; [lia|auto].
        * lia.
        * rewrite I5, !rsum_zero; auto. intros i Hi. apply Z0. lia.
      + rewrite (sh_el _ _ _ _ SH), (rd_el a nv HC) by (fold N; lia). cbn [bind]. apply wp_bind.
        eapply wp_mono; [apply (nb_find a nv HC e (nbr a cur k) (sp a e) He ltac:(lia))|].
        { intros i Hi. apply (nbr_below_sp a nv HC); auto. pose proof (nbr_mono a nv HC cur j k ltac:(fold N; lia)). fold e in H. lia. }
        intros [fnd ans] (F & _). cbn [fst] in F. change (inb (nbr a cur k) (row a e)) with (padj a cur j k) in F.
        assert (Sk : S k = true) by auto.
        assert (BN : wp (if fnd then x <- rd buf k;; Ok (rem, cl, rnd (pot + x)%Z) else Ok (rem ++ [k], cl - 1, pot))
          (fun r => r = (members (Datatypes.S k) B, card N S - card (Datatypes.S k) B, rsum rnd (Datatypes.S k) (pw cur) (inter a cur S j)))).
        { rewrite F, members_S, card_S, rsum_S.
          assert (EB : B k = negb (padj a cur j k)) by (unfold B; rewrite Sk; reflexivity). rewrite EB.
          assert (EI : inter a cur S j k = padj a cur j k) by (unfold inter; rewrite Sk; reflexivity). rewrite EI.
          destruct (padj a cur j k); cbn [negb].
          - rewrite (rd_some buf k (pw cur k)) by (apply HB; auto). cbn [bind]. apply wp_ok. rewrite app_nil_r, I3, I4, I5, Nat.add_0_r. auto.
          - apply wp_ok. rewrite I3, I4, I5. f_equal. f_equal. lia. }
        apply wp_bind. eapply wp_mono; [exact BN|]. intros [[rem' cl'] pot'] EQ. injection EQ as E1 E2 E3.
        apply wp_bind. eapply wp_mono; [eapply bits_next_spec; eauto; apply (sh_mem _ _ _ _ SH)|].
        intros k' Hk'. destruct (Hnext (k + 1) k' ltac:(lia) Hk' ltac:(lia)) as (K1 & K2 & K3). apply wp_ok.
        split; [|lia]. split; [lia|]. split; auto.
        assert (P1 : forall i, Datatypes.S k <= i < k' -> B i = false) by (intros i Hi; unfold B; rewrite K3 by lia; auto).
        split; [|split].
        * rewrite E1. symmetry. apply members_prefix; auto. lia.
        * rewrite E2, (card_prefix (Datatypes.S k) k' B); auto. lia.
        * rewrite E3. rewrite <- rsum_S. symmetry. apply rsum_prefix; [lia|]. intros i Hi. unfold inter. rewrite K3 by lia. auto.
      + replace k with N in * by lia. apply wp_ok. rewrite I3, I4, I5. f_equal. f_equal. lia.
  Qed.
End Ctx.
