(** NWHeur: the node-weighted heuristic records only cliques, and terminates without touching foreign memory. *)
From Verif Require Import Base MBits MUtils MGraph MHeur MNW SpecBits BaseFacts BitsFacts SetFacts FindFacts SortFacts RowFacts ConstructFacts CardFacts SearchBase FrameFacts FrameInv HeurFacts NWSum NWBase NWStack.
From Coq Require Import Sorting.Sorted Sorting.Permutation.
Local Open Scope nat_scope.
Local Arguments Nat.sub : simpl never.
Local Arguments Nat.mul : simpl never.

Lemma upd_Forall {A} (P : A -> Prop) l i x : Forall P l -> P x -> Forall P (upd l i x).
Proof. intros H Hx. revert i. induction H as [|y l H1 H2 IH]; intros [|i]; simpl; auto. Qed.

Section Heur.
  Variables (a : pairs) (nv cur : nat) (wt : wts).
  Hypothesis HC : gctx a nv.
  Hypothesis Hc : cur < nv.
  Let HS := gc_sorted _ _ HC.
  Let Hself := gc_self _ _ HC.
  Let Hb := gc_b _ _ HC.

  Notation N := (rlen a cur).
  Notation cp := (wcand a wt cur).
  Notation f := (pw a wt cur).
  Notation rnd := (wrnd wt).
  Notation exact := (wexact a wt).
  Definition went_of (p : nat) : wdata := mkWD (nbr a cur p) (rlen a (nbr a cur p)) p (dgr a wt (nbr a cur p)).
  Definition nbok (D : nat) (nb : list wdata) : Prop := length nb = D /\ Forall (fun d => wd_id d < nv) nb.

  Lemma cand_before i : sp a cur < i -> S (card i cp) <= i.
  Proof.
    intros H. pose proof (wcand_sp a nv wt HC cur Hc) as E. rewrite <- (card_add i cp (sp a cur) H E). apply card_bound.
  Qed.

  (** ** Collecting the neighbours *)
  Definition ncol (D p2 : nat) (m0 : list BinNums.N) (i : nat) (s : list BinNums.N * list wdata * nat * Z) : Prop :=
    let '(m, nb, j, _) := s in
    memok m /\ rep m p2 N (fun x => (x <? i) && cp x) /\ same_out m0 m p2 (words N) /\ nbok D nb
    /\ j = card i cp /\ firstn j nb = map went_of (members i cp).

  Lemma nh_collect_spec (strict : bool) W mcs mv D p2 m0 lo hi s : shape a nv (w_g W) mcs ->
    w_wt W = map wt (seq 0 nv) -> w_deg W = map (dgr a wt) (seq 0 nv) -> N <= D -> lo <= hi <= N ->
    (strict = true -> hi <= sp a cur) -> (strict = false -> sp a cur < lo) ->
    ncol D p2 m0 lo s ->
    wp (nh_collect rnd W (mkvert a mv cur) (dgr a wt cur) (refer_from p2 D) strict lo hi s) (ncol D p2 m0 hi).
  Proof.
    intros SH EW ED HD Hl H1 H2 H0. unfold nh_collect. cbv zeta.
    destruct (sp_spec a nv HS Hself cur Hc) as [S1 S2].
    apply (wp_for lo hi _ (ncol D p2 m0)); auto; try lia. clear s H0.
    intros i [[[m nb] j] pot] Hi (I1 & I2 & I3 & [I4 I4'] & I5 & I6).
    assert (CB : S (card i cp) < N).
    { destruct strict; [specialize (H1 eq_refl); pose proof (card_bound i cp); lia|].
      specialize (H2 eq_refl). pose proof (cand_before i ltac:(lia)). lia. }
    pose proof (nbr_lt a nv HC cur i ltac:(lia)) as NL.
    cbn [mkvert velo vN]. rewrite (sh_el _ _ _ _ SH), (rd_el a nv HC) by lia. cbn [bind].
    rewrite wr_ok by lia. cbn [bind]. rewrite ED, rd_mapseq by auto. cbn [bind].
    assert (C : (if strict then dgr a wt (nbr a cur i) <=? dgr a wt cur else dgr a wt (nbr a cur i) <? dgr a wt cur)%Z = negb (cp i)).
    { destruct strict; [apply (wcand_lt a nv wt HC); auto; lia|apply (wcand_gt a nv wt HC); auto]. specialize (H2 eq_refl). lia. }
    rewrite C. destruct (cp i) eqn:EC; cbn [negb].
    - rewrite (sh_vs _ _ _ _ SH), rd_vert by auto. cbn [bind mkvert vN].
      rewrite wr_ok by (rewrite upd_length; lia). cbn [bind].
      apply wp_bind. eapply wp_mono; [apply (bits_set_spec m p2 N _ _ i I1 I2); auto; lia|].
      intros m' (M1 & M2 & M3).
      set (nb' := upd (upd nb j _) j _).
      assert (NB : nbok D nb').
      { unfold nb'. split; [rewrite !upd_length; auto|]. repeat apply upd_Forall; auto. }
      destruct NB as [NB1 NB2].
      destruct (nth_error nb' (S j)) as [nxt|] eqn:EN; [|apply nth_error_None in EN; lia].
      rewrite (rd_some _ _ _ EN). cbn [bind].
      assert (wd_id nxt < nv) by (rewrite Forall_forall in NB2; apply NB2; apply nth_error_In in EN; auto).
      rewrite EW, rd_mapseq by auto. cbn [bind].
      apply wp_ok. unfold ncol. split; auto. split; [|split; [|split; [|split]]].
      + eapply rep_ext; [exact M2|]. intros x Hx. cbv beta.
        destruct (Nat.eqb_spec x i) as [->|].
        * destruct (Nat.ltb_spec i (S i)); [rewrite EC; auto|lia].
        * destruct (Nat.ltb_spec x i), (Nat.ltb_spec x (S i)); auto; lia.
      + eapply same_out_trans; eauto.
      + split; auto.
      + rewrite card_S, EC. lia.
      + unfold nb'. rewrite firstn_upd_S by (rewrite upd_length; lia). rewrite firstn_upd_lt, I6, members_S, EC, map_app. reflexivity.
    - apply wp_ok. unfold ncol. split; auto. split; [|split; [|split; [|split]]]; auto.
      + eapply rep_ext; [exact I2|]. intros x Hx. cbv beta.
        destruct (Nat.ltb_spec x i), (Nat.ltb_spec x (S i)); auto; [lia|]. replace x with i by lia. rewrite EC. auto.
      + split; [rewrite upd_length; auto|]. apply upd_Forall; auto.
      + rewrite card_S, EC. lia.
      + rewrite firstn_upd_lt, I6, members_S, EC, app_nil_r. reflexivity.
  Qed.

  (** ** The greedy loop *)
  Section Loop.
    Variables (W1 : nwgraph) (mcs : nat -> nat) (D c0 : nat) (L rest : list wdata).
    Hypothesis SH : shape a nv (w_g W1) mcs.
    Hypothesis EW : w_wt W1 = map wt (seq 0 nv).
    Hypothesis HD : N <= D.
    Hypothesis He : eb a nv <= c0.
    Hypothesis Hspace : c0 + 2 * words D <= length (edge_bits (w_g W1)).
    Hypothesis HL : Permutation L (map went_of (members N cp)).
    Notation p1 := c0.
    Notation p2 := (c0 + words D).

    Lemma wL_ent i d : nth_error L i = Some d -> d = went_of (wd_pos d) /\ wd_pos d < N /\ cp (wd_pos d) = true.
    Proof.
      intros E. apply nth_error_In in E. apply (Permutation_in _ HL) in E. apply in_map_iff in E.
      destruct E as (p & <- & I). unfold members in I. apply filter_In in I. destruct I as [I1 I2]. apply in_seq in I1.
      cbn [went_of wd_pos]. split; auto. split; auto. lia.
    Qed.

    Lemma wL_wt i d : nth_error L i = Some d -> rd (w_wt W1) (wd_id d) = Ok (f (wd_pos d)) /\ wd_id d < nv.
    Proof.
      intros E. destruct (wL_ent i d E) as (E1 & E2 & E3). rewrite E1. cbn [went_of wd_id wd_pos].
      pose proof (nbr_lt a nv HC cur (wd_pos d) E2). rewrite EW, rd_mapseq by auto. auto.
    Qed.

    Lemma wL_get x : x < N -> cp x = true -> exists i, i < length L /\ nth_error L i = Some (went_of x).
    Proof.
      intros Hx HP. assert (I : In (went_of x) L).
      { apply (Permutation_in _ (Permutation_sym HL)). apply in_map. apply filter_In. split; auto. apply in_seq. lia. }
      apply In_nth_error in I. destruct I as [i E]. exists i. split; auto. apply nth_error_Some. congruence.
    Qed.

    Lemma wrd_L i : i < length L -> exists d, rd (L ++ rest) i = Ok d /\ nth_error L i = Some d.
    Proof.
      intros H. destruct (nth_error L i) as [d|] eqn:E; [|apply nth_error_None in E; lia].
      exists d. split; auto. rewrite rd_app1 by auto. apply rd_some. auto.
    Qed.

    Lemma nh_filter_spec W i di m cl pot X : edge_list (w_g W) = map snd a -> vertices (w_g W) = verts a nv mcs -> w_wt W = w_wt W1 ->
      nth_error L i = Some di -> memok m -> rep m p2 N X -> cl = card N X ->
      wp (nh_filter rnd W (L ++ rest) (refer_from p2 D) (length L) i m cl pot)
         (fun r => let '(m', cl', _) := r in exists Y, memok m' /\ rep m' p2 N Y /\ cl' = card N Y /\ same_out m m' p2 (words N)
            /\ (forall x, x < N -> Y x = true -> X x = true)
            /\ forall k dk, i < k -> nth_error L k = Some dk -> Y (wd_pos dk) = true -> padj a cur (wd_pos di) (wd_pos dk) = true).
    Proof.
      intros Eel Evs Ewt Ei HM HR Ecl. destruct (wL_ent i di Ei) as (Di & Dp & Dc).
      assert (Hi : i < length L) by (apply nth_error_Some; congruence).
      unfold nh_filter. rewrite rd_app1 by auto. rewrite (rd_some _ _ _ Ei). cbn [bind].
      apply (wp_for (i + 1) (length L) _ (fun j r => let '(m', cl', _) := r in
            exists Y, memok m' /\ rep m' p2 N Y /\ cl' = card N Y /\ same_out m m' p2 (words N)
            /\ (forall x, x < N -> Y x = true -> X x = true)
            /\ forall k dk, i < k < j -> nth_error L k = Some dk -> Y (wd_pos dk) = true -> padj a cur (wd_pos di) (wd_pos dk) = true)); [lia| | |].
      - exists X. split; auto. split; auto. split; auto. split; [apply same_out_refl|]. split; auto. intros k dk Hk. lia.
      - intros j [[m' cl'] pot'] Hj (Y & Y1 & Y2 & Y3 & Y4 & Y5 & Y6).
        destruct (wrd_L j ltac:(lia)) as (dj & -> & Ej). cbn [bind]. destruct (wL_ent j dj Ej) as (Dj & Djp & Djc).
        destruct (wL_wt j dj Ej) as [RW _].
        rewrite (bits_get_spec m' p2 N Y _ _ Y2) by auto. cbn [bind].
        destruct (Y (wd_pos dj)) eqn:EY; cbn [negb].
        + assert (IDS : wd_id dj = nbr a cur (wd_pos dj) /\ wd_id di = nbr a cur (wd_pos di)) by (rewrite Dj, Di; auto).
          destruct IDS as [ID1 ID2]. unfold find_if_neighbors. rewrite Evs. rewrite ID1 at 1. rewrite rd_vert by (apply (nbr_lt a nv HC); auto).
          cbn [bind mkvert velo vN]. rewrite Eel. apply wp_bind. rewrite ID2.
          eapply wp_mono; [apply (nb_find0 a nv cur HC Hc); apply (nbr_lt a nv HC); auto|].
          intros [fnd ans] E. cbn [fst snd] in E. rewrite E.
          assert (EP : inb (nbr a cur (wd_pos di)) (row a (nbr a cur (wd_pos dj))) = padj a cur (wd_pos di) (wd_pos dj)).
          { rewrite (padj_sym a nv HC) by auto. reflexivity. }
          rewrite EP. destruct (padj a cur (wd_pos di) (wd_pos dj)) eqn:PJ.
          * apply wp_ok. exists Y. do 5 (split; auto).
            intros k dk Hk Ek EYk. destruct (Nat.eq_dec k j) as [->|]; [congruence|]. apply (Y6 k); auto. lia.
          * apply wp_bind. eapply wp_mono; [apply (bits_reset_spec m' p2 N Y _ (wd_pos dj) Y1 Y2); auto|].
            intros m'' (Z1 & Z2 & Z3). rewrite Ewt, RW. cbn [bind]. apply wp_ok. exists (fun x => negb (x =? wd_pos dj) && Y x).
            split; auto. split; auto. split; [rewrite <- (card_remove N Y (wd_pos dj)) in Y3; auto; lia|].
            split; [eapply same_out_trans; eauto|]. split.
            -- intros x Hx E2. apply andb_prop in E2. apply Y5; tauto.
            -- intros k dk Hk Ek EYk. apply andb_prop in EYk. destruct EYk as [E1 E2].
               destruct (Nat.eq_dec k j) as [->|]; [|apply (Y6 k); auto; lia].
               rewrite Ej in Ek. injection Ek as <-. rewrite Nat.eqb_refl in E1. discriminate.
        + apply wp_ok. exists Y. do 5 (split; auto).
          intros k dk Hk Ek EYk. destruct (Nat.eq_dec k j) as [->|]; [congruence|]. apply (Y6 k); auto. lia.
      - intros [[m' cl'] pot'] (Y & Y1 & Y2 & Y3 & Y4 & Y5 & Y6). exists Y. do 5 (split; auto).
        intros k dk Hk Ek. apply (Y6 k); auto. split; auto. apply nth_error_Some. congruence.
    Qed.

    (** State of the greedy loop: R the clique so far, X the candidates left. *)
    Definition nginv (i : nat) (cw : Z) (cl : nat) (m : list BinNums.N) (R X : nat -> bool) : Prop :=
      memok m /\ rep m p1 N R /\ rep m p2 N X /\ same_out (edge_bits (w_g W1)) m c0 (2 * words D)
      /\ rooted_by cp a cur R /\ pclique a cur R /\ (exact -> cw = wsum N f R) /\ 1 <= card N R /\ cl = card N X
      /\ (forall x, x < N -> X x = true -> cp x = true /\ R x = false /\ forall y, y < N -> R y = true -> padj a cur x y = true)
      /\ (forall k dk, k < i -> nth_error L k = Some dk -> X (wd_pos dk) = false).

    Definition ngreedy (s : nwgraph * nat * Z * nat * Z) : outcome (step (nwgraph * nat * Z * nat * Z) nwgraph) :=
      let '(W, i, cw, cl, pot) := s in
         if i <? length L then
           di <- rd (L ++ rest) i;;
           b <- bits_get (edge_bits (w_g W)) (refer_from p2 D) (wd_pos di);;
           if negb b then Ok (Cont (W, i + 1, cw, cl, pot))
           else
             m <- bits_set (edge_bits (w_g W)) (refer_from p1 D) (wd_pos di);;
             x <- rd (w_wt W) (wd_id di);;
             let cw := rnd (cw + x)%Z in
             m <- bits_reset m (refer_from p2 D) (wd_pos di);;
             '(m, cl, pot) <- nh_filter rnd W (L ++ rest) (refer_from p2 D) (length L) i m (cl - 1) (rnd (pot - x)%Z);;
             let W := set_wmem W m in
             if (rnd (cw + pot) <=? w_size W)%Z then Ok (Done W)
             else if cl =? 0 then
               let g := w_g W in
               v <- rd (vertices g) cur;;
               _ <- live g;;
               m <- bits_copy_data (edge_bits g) (vbits v) (refer_from p1 D);;
               Ok (Done (mkW (set_mem g m) (w_wt W) (w_deg W) (w_mcs W) (w_limit W) cw cur))
             else Ok (Cont (W, i + 1, cw, cl, pot))
         else Ok (Done W).

    Notation at_c0 W := (set_wg W (set_cur (w_g W) c0)).

    Definition ngdone (W' : nwgraph) : Prop :=
      nprog a wt (at_c0 W1) (at_c0 W') cur /\ search_cur (w_g W') = search_cur (w_g W1) /\ w_mcs W' = w_mcs W1
      /\ (forall k, c0 + 2 * words D <= k -> nth k (edge_bits (w_g W')) 0%N = nth k (edge_bits (w_g W1)) 0%N).

    Lemma shape_at : shape a nv (w_g (at_c0 W1)) mcs.
    Proof. destruct SH as [A1 A2 A3 A4 A5]. split; auto. Qed.

    Lemma ngdone_none m : memok m -> same_out (edge_bits (w_g W1)) m c0 (2 * words D) -> ngdone (set_wmem W1 m).
    Proof.
      intros HM [SO1 SO2]. split; [|split; [|split]]; auto.
      - apply (nprog_arena a nv cur wt (at_c0 W1) Hc He (at_c0 W1) m c0); auto.
        + apply (nprog_refl a nv cur wt _ mcs shape_at).
        + intros k Hk. cbn [set_wg w_g set_cur search_cur edge_bits] in *. apply SO2. lia.
      - cbn [set_wmem set_wg w_g set_mem edge_bits]. intros k Hk. apply SO2. lia.
    Qed.

    Lemma ngreedy_spec W i cw cl pot m R X : W = set_wmem W1 m -> nginv i cw cl m R X -> i <= length L ->
      wp (ngreedy (W, i, cw, cl, pot))
         (fun r => match r with
                   | Cont (W', i', cw', cl', pot') => i < i' <= length L /\ exists m' R' X', W' = set_wmem W1 m' /\ nginv i' cw' cl' m' R' X'
                   | Done W' => ngdone W'
                   end).
    Proof.
      intros -> (G1 & G2 & G3 & G4 & G5 & G6 & G7 & G7' & G8 & G10 & G11) Hi. unfold ngreedy.
      assert (WD : words N <= words D) by (apply words_mono; auto).
      assert (LM : length m = length (edge_bits (w_g W1))) by apply G4.
      destruct (Nat.ltb_spec i (length L)) as [Li|Li].
      2: { apply wp_ok. apply ngdone_none; auto. }
      destruct (wrd_L i Li) as (di & -> & Ei). cbn [bind]. destruct (wL_ent i di Ei) as (Di & Dp & Dc).
      destruct (wL_wt i di Ei) as [RW _].
      cbn [set_wmem set_wg w_g w_wt set_mem edge_bits]. rewrite (bits_get_spec m p2 N X _ _ G3) by auto. cbn [bind].
      destruct (X (wd_pos di)) eqn:EX; cbn [negb].
      2: { apply wp_ok. split; [lia|]. exists m, R, X. split; [reflexivity|]. unfold nginv.
        do 10 (split; auto).
        intros k dk Hk Ek. destruct (Nat.eq_dec k i) as [->|]; [congruence|]. apply (G11 k); auto. lia. }
      destruct (G10 _ Dp EX) as (CX & RX & AX).
      apply wp_bind. eapply wp_mono; [apply (bits_set_spec m p1 N R _ (wd_pos di) G1 G2); auto|].
      intros m1 (A1 & A2 & A3). rewrite RW. cbn [bind].
      assert (A4 : rep m1 p2 N X) by (refine (rep_frame m m1 _ _ X p1 (words N) G3 A3 ltac:(lia))).
      cbv zeta. apply wp_bind. eapply wp_mono; [apply (bits_reset_spec m1 p2 N X _ (wd_pos di) A1 A4); auto|].
      intros m2 (B1 & B2 & B3).
      assert (B4 : rep m2 p1 N (fun x => (x =? wd_pos di) || R x)) by (refine (rep_frame m1 m2 _ _ _ p2 (words N) A2 B3 ltac:(lia))).
      apply wp_bind.
      eapply wp_mono; [apply (nh_filter_spec (set_wmem W1 m) i di m2 _ _ _ (sh_el _ _ _ _ SH) (sh_vs _ _ _ _ SH) eq_refl Ei B1 B2)|].
      { rewrite G8, <- (card_remove N X (wd_pos di)) by auto. lia. }
      intros [[m3 cl3] pot3] (Y & Y1 & Y2 & Y3 & Y4 & Y5 & Y6).
      assert (Y7 : rep m3 p1 N (fun x => (x =? wd_pos di) || R x)) by (refine (rep_frame m2 m3 _ _ _ p2 (words N) B4 Y4 ltac:(lia))).
      set (R' := fun x => (x =? wd_pos di) || R x) in *.
      assert (CR : card N R' = S (card N R)) by (apply card_add; auto).
      assert (CW : exact -> rnd (cw + f (wd_pos di))%Z = wsum N f R').
      { intros EXA. rewrite <- (EXA cur N R' (Nat.le_refl _)). f_equal. unfold R'. rewrite wsum_add by auto. rewrite (G7 EXA). lia. }
      assert (SO : same_out (edge_bits (w_g W1)) m3 c0 (2 * words D)).
      { eapply same_out_trans; [exact G4|]. eapply same_out_trans; [eapply same_out_weaken; [exact A3|lia|lia]|].
        eapply same_out_trans; [eapply same_out_weaken; [exact B3|lia|lia]|]. eapply same_out_weaken; [exact Y4|lia|lia]. }
      assert (RR : rooted_by cp a cur R').
      { destruct G5 as [R1 R2]. split; [unfold R'; rewrite R1; apply orb_true_r|]. intros p Hp E. unfold R' in E.
        destruct (Nat.eqb_spec p (wd_pos di)) as [->|]; auto. }
      assert (PC : pclique a cur R').
      { intros p q Hp Hq E1 E2 NE. unfold R' in E1, E2.
        destruct (Nat.eqb_spec p (wd_pos di)) as [->|]; destruct (Nat.eqb_spec q (wd_pos di)) as [->|]; cbn [orb] in *; try congruence; auto.
        - rewrite (padj_sym a nv HC) by auto. apply AX; auto. }
      assert (YC : forall x, x < N -> Y x = true -> cp x = true /\ R' x = false /\ forall y, y < N -> R' y = true -> padj a cur x y = true).
      { intros x Hx E. pose proof (Y5 x Hx E) as E2. apply andb_prop in E2. destruct E2 as [E2 E3].
        destruct (G10 x Hx E3) as (C1 & C2 & C3). split; auto. split.
        - unfold R'. apply negb_true_iff in E2. rewrite E2. auto.
        - intros y Hy Ey. unfold R' in Ey. destruct (Nat.eqb_spec y (wd_pos di)) as [->|]; [|auto].
          rewrite (padj_sym a nv HC) by auto. destruct (wL_get x Hx C1) as (k & Hk & Ek).
          apply (Y6 k (went_of x)); auto.
          destruct (Nat.lt_ge_cases i k) as [|GE]; auto. exfalso. destruct (Nat.eq_dec k i) as [->|].
          + rewrite Ei in Ek. injection Ek as ->. cbn [went_of wd_pos] in E2. rewrite Nat.eqb_refl in E2. discriminate.
          + pose proof (G11 k _ ltac:(lia) Ek) as F. cbn [went_of wd_pos] in F. congruence. }
      change (set_wmem {| w_g := set_mem (w_g W1) m; w_wt := w_wt W1; w_deg := w_deg W1; w_mcs := w_mcs W1; w_limit := w_limit W1; w_size := w_size W1; w_loc := w_loc W1 |} m3) with (set_wmem W1 m3).
      cbn [w_size set_wmem set_wg].
      destruct (Z.leb_spec (rnd (rnd (cw + f (wd_pos di)) + pot3)) (w_size W1)) as [LE|GT].
      { apply wp_ok. apply (ngdone_none m3); auto. }
      destruct (Nat.eqb_spec cl3 0) as [Z|NZ].
      - subst cl3. cbn [set_wmem set_wg w_g w_wt w_deg w_mcs w_limit set_mem vertices edge_bits bits_live]. unfold live. cbn [set_mem bits_live].
        rewrite (sh_live _ _ _ _ SH), (sh_vs _ _ _ _ SH), rd_vert by auto.
        cbn [bind mkvert vbits]. destruct SO as [SO1 SO2]. pose proof (block_end a nv cur Hc) as BE.
        apply wp_bind. eapply wp_mono; [apply (bits_copy_data_spec m3 (eb a cur) p1 N R' _ _ Y1 Y7); auto; lia|].
        intros m4 (M1 & M2 & [M3 M4]). apply wp_ok.
        split; [|split; [|split]]; auto.
        + split; cbn [set_wg w_g w_wt w_deg w_mcs w_limit w_size w_loc set_cur set_mem edge_bits vertices search_cur]; auto; try lia.
          * intros k Hk NB. rewrite M4 by exact NB. apply SO2. lia.
          * right. split; auto. split; auto. exists R'. do 3 (split; auto). split; [lia|]. intros EXA. symmetry. apply CW. auto.
        + cbn [w_g set_mem edge_bits]. intros k Hk. rewrite M4 by (unfold in_block; lia). apply SO2. lia.
      - apply wp_ok. split; [lia|]. exists m3, R', Y. split; [reflexivity|]. unfold nginv.
        do 7 (split; auto). split; [lia|]. split; auto. split; auto.
        intros k dk Hk Ek. destruct (Y (wd_pos dk)) eqn:EY; auto. exfalso. destruct (wL_ent k dk Ek) as (_ & Dk & _).
        pose proof (Y5 _ Dk EY) as E2. apply andb_prop in E2. destruct E2 as [E2 E3].
        destruct (Nat.eq_dec k i) as [->|].
        + rewrite Ei in Ek. injection Ek as ->. rewrite Nat.eqb_refl in E2. discriminate.
        + rewrite (G11 k dk) in E3; auto. discriminate. lia.
    Qed.
  End Loop.

  Notation at_c c0 W := (set_wg W (set_cur (w_g W) c0)).

  (** ** One root *)
  Lemma nh_process_vertex_spec srt W nb mcs c0 : (forall l, Permutation (srt l) l) ->
    shape a nv (w_g W) mcs -> w_wt W = map wt (seq 0 nv) -> w_deg W = map (dgr a wt) (seq 0 nv) ->
    N <= max_degree (w_g W) -> nbok (max_degree (w_g W)) nb -> eb a nv <= c0 ->
    c0 + 2 * words (max_degree (w_g W)) <= length (edge_bits (w_g W)) ->
    wp (nh_process_vertex rnd srt W nb cur (refer_from c0 (max_degree (w_g W))) (refer_from (c0 + words (max_degree (w_g W))) (max_degree (w_g W))))
       (fun r => nprog a wt (at_c c0 W) (at_c c0 (fst r)) cur /\ search_cur (w_g (fst r)) = search_cur (w_g W)
          /\ w_mcs (fst r) = w_mcs W
          /\ (forall k, c0 + 2 * words (max_degree (w_g W)) <= k -> nth k (edge_bits (w_g (fst r))) 0%N = nth k (edge_bits (w_g W)) 0%N)
          /\ nbok (max_degree (w_g W)) (snd r)).
  Proof.
    intros HP SH EW ED HD Hnb He Hsp. set (D := max_degree (w_g W)) in *.
    assert (WD : words N <= words D) by (apply words_mono; auto).
    destruct (sp_spec a nv HS Hself cur Hc) as [S1 S2].
    pose proof (len_pos a nv HS Hself cur Hc) as NP.
    unfold nh_process_vertex. rewrite (sh_vs _ _ _ _ SH) at 1. rewrite rd_vert by auto. cbn [bind].
    change (vN (mkvert a (mcs cur) cur)) with N. change (vspos (mkvert a (mcs cur) cur)) with (sp a cur).
    apply wp_bind. eapply wp_mono; [apply (bits_clear_spec (edge_bits (w_g W)) c0 D _ N (sh_mem _ _ _ _ SH)); auto; lia|].
    intros m1 (A1 & A2 & A3).
    apply wp_bind. eapply wp_mono; [apply (bits_clear_spec m1 (c0 + words D) D _ N A1); auto; destruct A3; lia|].
    intros m2 (B1 & B2 & B3).
    assert (B4 : rep m2 c0 N (fun _ => false)) by (refine (rep_frame m1 m2 _ _ _ (c0 + words D) (words D) A2 B3 ltac:(lia))).
    apply wp_bind. eapply wp_mono; [apply (bits_set_spec m2 c0 N _ _ (sp a cur) B1 B4); auto|].
    intros m3 (C1 & C2 & C3).
    assert (C4 : rep m3 (c0 + words D) N (fun _ => false)) by (refine (rep_frame m2 m3 _ _ _ c0 (words N) B2 C3 ltac:(lia))).
    assert (SO3 : same_out (edge_bits (w_g W)) m3 c0 (2 * words D)).
    { eapply same_out_trans; [eapply same_out_weaken; [exact A3|lia|lia]|].
      eapply same_out_trans; [eapply same_out_weaken; [exact B3|lia|lia]|]. eapply same_out_weaken; [exact C3|lia|lia]. }
    replace (rd (w_wt W) cur) with (Ok (wt cur)) by (rewrite EW, rd_mapseq; auto).
    replace (rd (w_deg W) cur) with (Ok (dgr a wt cur)) by (rewrite ED, rd_mapseq; auto). cbn [bind].
    apply wp_bind. eapply wp_mono; [apply (nh_collect_spec true W mcs (mcs cur) D (c0 + words D) m3 0 (sp a cur)); auto; try lia; try discriminate|].
    { unfold ncol. split; auto. split; [eapply rep_ext; [exact C4|]; auto|]. split; [apply same_out_refl|]. split; auto. }
    intros s0 I0. apply wp_bind. eapply wp_mono; [apply (nh_collect_spec false W mcs (mcs cur) D (c0 + words D) m3 (sp a cur + 1) N); auto; try lia; try discriminate|].
    { destruct s0 as [[[m nb0] j] pot]. destruct I0 as (I1 & I2 & I3 & I4 & I5 & I6). pose proof (wcand_sp a nv wt HC cur Hc) as CS.
      unfold ncol. split; auto. split; [|split; [|split; [|split]]]; auto.
      - eapply rep_ext; [exact I2|]. intros x Hx. cbv beta.
        destruct (Nat.ltb_spec x (sp a cur)), (Nat.ltb_spec x (sp a cur + 1)); auto; [lia|].
        replace x with (sp a cur) by lia. rewrite CS. auto.
      - rewrite Nat.add_1_r, card_S, CS. lia.
      - rewrite Nat.add_1_r, members_S, CS, app_nil_r. auto. }
    intros [[[m4 nb4] cl] pot] (I1 & I2 & I3 & [I4 I4'] & I5 & I6).
    assert (E4 : rep m4 c0 N (fun x => (x =? sp a cur) || false)) by (refine (rep_frame m3 m4 _ _ _ (c0 + words D) (words N) C2 I3 ltac:(lia))).
    assert (SO4 : same_out (edge_bits (w_g W)) m4 c0 (2 * words D)).
    { eapply same_out_trans; [exact SO3|]. eapply same_out_weaken; [exact I3|lia|lia]. }
    assert (NBF : forall l, Permutation l (firstn cl nb4) -> nbok D (l ++ skipn cl nb4)).
    { intros l PL. split.
      - rewrite app_length, (Permutation_length PL), <- app_length, firstn_skipn. auto.
      - apply (Permutation_Forall (Permutation_sym (Permutation_app_tail _ PL))). rewrite firstn_skipn. auto. }
    cbv zeta. change (w_size (set_wmem W m4)) with (w_size W).
    destruct (Z.leb_spec (Z.of_nat cl) (w_size W)) as [LE|GT].
    - apply wp_ok. cbn [fst snd]. destruct (ngdone_none W mcs D c0 SH HD He Hsp m4 I1 SO4) as (Q1 & Q2 & Q3 & Q4). do 4 (split; auto). split; auto.
    - apply wp_bind.
      set (L := srt (firstn cl nb4)).
      assert (PL : Permutation L (map went_of (members N cp))) by (unfold L; rewrite <- I6; apply HP).
      assert (LL : length L = cl).
      { rewrite (Permutation_length PL), map_length, I5. reflexivity. }
      set (W1 := set_wmem W m4).
      assert (SH1 : shape a nv (w_g W1) mcs) by (destruct SH as [X1 X2 X3 X4 X5]; split; auto).
      assert (LM : length m4 = length (edge_bits (w_g W))) by apply SO4.
      eapply wp_mono.
      + rewrite <- LL at 1.
        apply (wp_loopN_rel (S (length L)) _ (fun s n => let '(W', i, cw, cl', _) := s in
                 n = length L - i /\ i <= length L /\ exists m R X, W' = set_wmem W1 m /\ nginv W1 D c0 L i cw cl' m R X)
               (W1, 0, wt cur, cl, pot) (length L) (ngdone W1 D c0)); [| lia |].
        * split; [lia|]. split; [lia|]. exists m4, (fun x => (x =? sp a cur) || false), (fun x => (x <? N) && cp x).
          split; [reflexivity|]. unfold nginv. cbn [W1 set_wmem set_wg w_g set_mem edge_bits]. split; auto. split; auto. split; auto.
          split; [apply same_out_refl|].
          assert (C1' : card N (fun x => (x =? sp a cur) || false) = 1).
          { rewrite (card_ext N _ (fun x => x =? sp a cur)) by (intros; apply orb_false_r).
            rewrite card_single. destruct (Nat.ltb_spec (sp a cur) N); [auto|lia]. }
          split; [|split; [|split; [|split; [|split; [|split]]]]].
          -- split; [rewrite Nat.eqb_refl; auto|]. intros p Hp E. rewrite orb_false_r in E. apply Nat.eqb_eq in E. auto.
          -- intros p q Hp Hq E1 E2 NE. rewrite orb_false_r in *. apply Nat.eqb_eq in E1, E2. congruence.
          -- intros _. rewrite wsum_add, wsum_false by auto. unfold pw. rewrite S2. lia.
          -- lia.
          -- rewrite I5. apply card_ext. intros x Hx. destruct (Nat.ltb_spec x N); [auto|lia].
          -- intros x Hx E. apply andb_prop in E. destruct E as [_ E]. split; auto.
             assert (NE : x <> sp a cur) by (intros ->; rewrite (wcand_sp a nv wt HC cur Hc) in E; discriminate).
             split; [apply Nat.eqb_neq in NE; rewrite NE; auto|]. intros y Hy Ey. rewrite orb_false_r in Ey. apply Nat.eqb_eq in Ey. subst y.
             rewrite (padj_sym a nv HC) by auto. apply (padj_root a nv HC); auto.
          -- intros k dk Hk. lia.
        * intros [[[[W' i] cw] cl'] pot'] n (En & Hi & m & R & X & Eg & GI).
          rewrite <- LL.
          eapply wp_mono; [exact (ngreedy_spec W1 mcs D c0 L (skipn (length L) nb4) SH1 EW HD He ltac:(cbn; lia) PL W' i cw cl' pot' m R X Eg GI Hi)|].
          intros [[[[[W'' i'] cw'] cl''] pot'']|x].
          -- intros (Hi' & m' & R' & X' & Eg' & GI'). exists (length L - i'). split; [lia|]. split; auto. split; [lia|].
             exists m', R', X'. auto.
          -- auto.
      + intros W' (P1 & P2 & P3 & P4). cbn [bind]. apply wp_ok. cbn [fst snd].
        split; [|split; [|split; [|split]]]; auto.
        * destruct P1 as [Q1 Q2 Q3 Q4 Q5 Q6 Q7 Q8 Q9]. unfold W1 in *.
          cbn [set_wmem set_wg w_g w_wt w_deg w_mcs w_limit w_size w_loc set_cur set_mem edge_bits vertices search_cur] in *.
          split; cbn [set_wg w_g w_wt w_deg w_mcs w_limit w_size w_loc set_cur set_mem edge_bits vertices search_cur]; auto.
          -- rewrite Q6. auto.
          -- intros k Hk NB. rewrite Q8 by auto. apply SO4. lia.
          -- destruct Q9 as [(B5 & B6 & B7 & B8)|B]; [left|right; auto]. split; auto. split; auto. split; auto.
             intros k Hk. rewrite B8 by auto. pose proof (block_end a nv cur Hc). unfold in_block in Hk. apply SO4. lia.
        * intros k Hk. rewrite P4 by auto. apply SO4. lia.
        * apply NBF. apply HP.
  Qed.
End Heur.
