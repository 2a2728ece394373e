(** NWFacts: NWGraph.get_max_clique, reset_search and the weights, on the objects Python sees. *)
From Verif Require Import Base MBits MUtils MGraph MHeur MApi MNW MNWEnum MNWApi Spec SpecNW SpecBits BaseFacts BitsFacts SetFacts SortFacts RowFacts ConstructFacts CardFacts LoadFacts SearchBase StackFacts SearchFacts CliqueFacts FrameFacts FrameInv NWSum NWBase NWStack NWHeur NWSearch ApiFacts EnumFacts EnumApi.
From Coq Require Import Sorting.Sorted Sorting.Permutation.
Local Open Scope nat_scope.
Local Arguments Nat.sub : simpl never.
Local Arguments Nat.mul : simpl never.

Lemma weight_zsum w c : weight w c = zsum (map (vweight w) c).
Proof. induction c as [|v c IH]; simpl; auto. rewrite IH. auto. Qed.

Lemma vweight_seq n w : length w = n -> map (vweight w) (seq 0 (n + 1)) = 0%Z :: w.
Proof. intros E. transitivity (map (fun i => nth i (0%Z :: w) 0%Z) (seq 0 (length (0%Z :: w)))); [|apply mapseq_nth]. cbn [length]. rewrite E, Nat.add_1_r. reflexivity. Qed.

Lemma vweight_nonneg w : nonnegative w -> forall v, (0 <= vweight w v)%Z.
Proof.
  intros H v. unfold vweight. destruct v as [|v]; [simpl; lia|]. change (0 <= nth v w 0)%Z.
  destruct (Nat.lt_ge_cases v (length w)); [apply H, nth_In; auto|rewrite nth_overflow by lia; lia].
Qed.

Lemma weight_nonneg w c : nonnegative w -> (0 <= weight w c)%Z.
Proof. intros H. induction c as [|v c IH]; simpl; [lia|]. pose proof (vweight_nonneg w H v). lia. Qed.

Section Gra.
  Variables (a : pairs) (n : nat) (adj : nat -> nat -> Prop) (w : list Z) (rnd : Z -> Z).
  Hypothesis GR : gra a n adj.
  Hypothesis LW : length w = n.
  Notation nv := (n + 1).
  Notation wt := (mkwts (vweight w) rnd).
  Let HC := gra_ctx a n adj GR.
  Let HS := gc_sorted _ _ HC.
  Let Hself := gc_self _ _ HC.

  (** ** Rooted sets and lists *)
  Lemma decode_weight v K : weight w (decode a v K) = wsum (rlen a v) (pw a wt v) K.
  Proof. rewrite weight_zsum, wsum_members. unfold decode. rewrite map_map. reflexivity. Qed.

  Lemma exact_sums : sums_exact rnd w -> wexact a wt.
  Proof.
    intros EX i k P Hk. rewrite wsum_members. change (pw a wt i) with (fun p => vweight w (nbr a i p)).
    rewrite <- (map_map (fun p => nbr a i p) (vweight w)), <- weight_zsum. apply EX.
    assert (LT : forall x, In x (members k P) -> x < rlen a i).
    { intros x I. apply filter_In in I. destruct I as [I _]. apply in_seq in I. lia. }
    assert (ND : NoDup (members k P)) by (apply NoDup_filter, seq_NoDup).
    revert LT ND. generalize (members k P). intros l. induction l as [|x l IH]; intros LT ND; [constructor|]. inversion ND as [|? ? ND1 ND2]. cbn [map]. constructor.
    - intros I. apply in_map_iff in I. destruct I as (y & E & I). assert (y = x); [|congruence].
      apply (nbr_inj a nv HC i); auto; apply LT; [right|left]; auto.
    - apply IH; auto. intros y I. apply LT. right. auto.
  Qed.

  Lemma wfirst_root (c : list nat) : c <> [] -> exists v, In v c /\ forall u, In u c -> u = v \/ wbef (dgr a wt) v u = true.
  Proof.
    induction c as [|x c IH]; intros H; [congruence|]. destruct c as [|y c].
    - exists x. split; [left; auto|]. intros u [<-|[]]; auto.
    - destruct IH as (v & I & M); [discriminate|]. destruct (Nat.eq_dec x v) as [->|NE].
      + exists v. split; [left; auto|]. intros u [<-|I']; auto.
      + destruct (wbef_total (dgr a wt) x v NE) as [B|B].
        * exists x. split; [left; auto|]. intros u [<-|I']; auto. right. destruct (M u I') as [->|B']; auto. eapply wbef_trans; eauto.
        * exists v. split; [right; auto|]. intros u [<-|I']; auto.
  Qed.

  (** A clique as a set of positions in the row of any of its members. *)
  Lemma clique_at c v : clique n adj c -> In v c -> let K := fun p => inb (nbr a v p) c in
    K (sp a v) = true /\ pclique a v K /\ decode a v K = c /\ card (rlen a v) K = length c.
  Proof.
    intros (C1 & C2 & C3) I K. pose proof (C2 v I) as Hv.
    destruct (sp_spec a nv HS Hself v ltac:(lia)) as [S1 S2].
    assert (RI : forall u, In u c -> In u (row a v)).
    { intros u Iu. rewrite row_in. apply (gr_in _ _ _ GR). pose proof (C2 u Iu). split; [lia|]. split; [lia|].
      destruct (Nat.eq_dec v u); auto. }
    assert (FE : filter (fun x => inb x c) (row a v) = c).
    { apply sorted_ext; auto; [apply filter_sorted, row_sorted, HS|]. intros x. rewrite filter_In, inb_in. split; [tauto|auto]. }
    assert (ME : decode a v K = c).
    { rewrite <- FE. unfold decode, members, K. clear. generalize (row a v). intros l.
      induction l as [|x l IH] using rev_ind; auto. rewrite app_length, Nat.add_1_r, seq_S, !filter_app, map_app. cbn [Nat.add filter].
      rewrite app_nth2, Nat.sub_diag by lia. cbn [nth]. f_equal.
      - rewrite <- IH. rewrite (filter_ext_in _ (fun p => inb (nth p l 0) c)).
        + apply map_ext_in. intros p Hp. apply filter_In in Hp. destruct Hp as [Hp _]. apply in_seq in Hp. rewrite app_nth1 by lia. auto.
        + intros p Hp. apply in_seq in Hp. rewrite app_nth1 by lia. auto.
      - destruct (inb x c); auto. cbn [map]. rewrite app_nth2, Nat.sub_diag by lia. auto. }
    split; [unfold K; rewrite S2; apply inb_in; auto|]. split; [|split; auto].
    - intros p q Hp Hq E1 E2 NE'. unfold K in E1, E2. apply inb_in in E1, E2. apply (padj_iff a); auto.
      apply (gr_in _ _ _ GR). pose proof (C2 _ E1). pose proof (C2 _ E2). split; [lia|]. split; [lia|]. right. apply C3; auto.
      intros E. apply NE'. apply (nbr_inj a nv HC v); auto.
    - rewrite <- ME at 1. unfold decode. rewrite map_length. reflexivity.
  Qed.

  Lemma wclique_rooted c : clique n adj c -> c <> [] -> exists v K, 1 <= v < nv /\ In v c /\ rooted_by (wcand a wt v) a v K /\ pclique a v K
    /\ card (rlen a v) K = length c /\ decode a v K = c.
  Proof.
    intros C NE. destruct (wfirst_root c NE) as (v & I & M). pose proof (proj1 (proj2 C) v I) as Hv.
    destruct (clique_at c v C I) as (K1 & K2 & K3 & K4). exists v, (fun p => inb (nbr a v p) c).
    split; [lia|]. split; auto. split; auto. split; auto. intros p Hp E. apply inb_in in E.
    destruct (sp_spec a nv HS Hself v ltac:(lia)) as [S1 S2].
    destruct (M _ E) as [E'|B]; [left|right; exact B]. apply (nbr_inj a nv HC v); auto. congruence.
  Qed.

  (** And back; the root plays no role. *)
  Lemma pclique_clique v K : 1 <= v < nv -> pclique a v K -> clique n adj (decode a v K).
  Proof.
    intros Hv P. unfold decode. split; [|split].
    - apply sorted_map; [apply sel_sorted|]. intros x y Ix Iy L. apply filter_In in Iy. destruct Iy as [Iy _]. apply in_seq in Iy.
      apply (nbr_mono a nv HC). lia.
    - intros x I. apply in_map_iff in I. destruct I as (p & <- & I). apply filter_In in I. destruct I as [I _]. apply in_seq in I.
      assert (J : In (v, nbr a v p) a) by (apply row_in, nth_In; lia).
      apply (gr_in _ _ _ GR) in J. destruct J as (_ & J1 & [J2|J2]); [lia|].
      apply (gr_simple _ _ _ GR) in J2. destruct J2 as [J2 _]. apply (gr_simple _ _ _ GR) in J2. lia.
    - intros x y Ix Iy NE. apply in_map_iff in Ix, Iy. destruct Ix as (p & <- & Ip), Iy as (q & <- & Iq).
      apply filter_In in Ip, Iq. destruct Ip as [Ip Kp], Iq as [Iq Kq]. apply in_seq in Ip, Iq.
      assert (PQ : p <> q) by congruence.
      pose proof (P p q ltac:(lia) ltac:(lia) Kp Kq PQ) as A. apply (padj_iff a) in A; try lia.
      apply (gra_adj _ _ _ _ _ GR). auto.
  Qed.

  Lemma decode_length v K : length (decode a v K) = card (rlen a v) K.
  Proof. unfold decode. rewrite map_length. reflexivity. Qed.

  Lemma two_root v K : v < nv -> 2 <= card (rlen a v) K -> 1 <= v < nv.
  Proof.
    intros Hv L. destruct v; [|lia]. pose proof (card_bound (rlen a 0) K). rewrite (gra_len0 a n adj GR) in *. lia.
  Qed.

  Lemma nheavy_all M : (forall v, v < nv -> nheavy a wt v M) -> all_within n adj w M.
  Proof.
    intros H d C L. destruct (wclique_rooted d C) as (v & K & Hv & _ & R & P & CL & <-); [intros ->; simpl in L; lia|].
    rewrite decode_weight. apply (H v); auto; lia.
  Qed.

  Lemma all_nheavy M : all_within n adj w M -> forall v, v < nv -> nheavy a wt v M.
  Proof.
    intros H v Hv K R P L. rewrite <- decode_weight. pose proof (two_root v K Hv L). apply H; [apply pclique_clique; auto|rewrite decode_length; auto].
  Qed.

  Lemma pclique_bound g cap v K : built a nv cap g -> v < nv -> pclique a v K -> card (rlen a v) K <= Nat.max 1 (CLIQUE_LIMIT g).
  Proof.
    intros B Hv P. destruct (Nat.le_gt_cases (card (rlen a v) K) 1) as [|L]; [lia|].
    pose proof (two_root v K Hv L) as Hv'. pose proof (pclique_clique v K Hv' P) as C. rewrite <- decode_length in *.
    destruct (clique_rooted a n adj GR _ C) as (v2 & K2 & Hv2 & _ & R & P2 & E & _); [intros E; rewrite E in L; simpl in L; lia|].
    rewrite <- E. pose proof (rooted_bound a n v2 K2 ltac:(lia) R). pose proof (b_lim _ _ _ _ B v2 ltac:(lia)). lia.
  Qed.

  (** ** A new object *)
  Definition nfresh (p : pynw) (m cap : nat) : Prop := exists W, p = mkQ (Some W) n m 0 false /\ built a nv cap (w_g W)
    /\ w_wt W = 0%Z :: w /\ w_deg W = map (dgr a wt) (seq 0 nv) /\ w_mcs W = map (wbnd a wt) (seq 0 nv) /\ w_size W = 0%Z
    /\ (forall i, i < nv -> (wbnd a wt i <= w_limit W)%Z)
    /\ ((w_limit W = 0%Z /\ w_loc W = 0) \/ (w_loc W < nv /\ wbnd a wt (w_loc W) = w_limit W /\ (0 < w_limit W)%Z)).

  Lemma built_weights cap g m : built a nv cap g ->
    wp (bind (nw_degrees rnd g (0%Z :: w)) (fun '(ws, ds) => '(ms, lim, loc) <- nw_bounds rnd g ws ds;; Ok (mkW g ws ds ms lim 0%Z loc)))
       (fun W => nfresh (mkQ (Some W) n m 0 false) m cap /\ w_g W = g).
  Proof.
    intros B. pose proof (nw_degrees_spec a nv wt HC g (bound a) (0%Z :: w) (b_el _ _ _ _ B) (b_vs _ _ _ _ B) (b_nv _ _ _ _ B)) as ED. cbn [wrnd] in ED. rewrite ED.
    2: { intros i Hi. rewrite <- (vweight_seq n w LW), nth_error_map. rewrite (nth_error_nth' _ 0) by (rewrite seq_length; auto).
         rewrite seq_nth by auto. reflexivity. }
    cbn [bind]. apply wp_bind. eapply wp_mono; [apply (nw_bounds_spec a nv wt HC g (bound a) (b_el _ _ _ _ B) (b_vs _ _ _ _ B) (b_nv _ _ _ _ B))|].
    intros [[ms lim] loc] (-> & H1 & H2). apply wp_ok. split; auto. eexists. split; [reflexivity|]. cbn [w_g w_wt w_deg w_mcs w_size w_limit w_loc].
    split; auto. split; [apply (vweight_seq n w LW)|]. do 4 (split; auto).
  Qed.

  (** A new object has room for two searches. *)
  Lemma nfresh_room p m cap W : nfresh p m cap -> q_G p = Some W -> has_edge adj -> bits_live (w_g W) = true ->
    exists B, 1 <= B /\ (forall k, k < nv -> (forall K, pclique a k K -> card (rlen a k) K <= B) /\ rlen a k <= max_degree (w_g W))
      /\ search_cur (w_g W) = search_start (w_g W) /\ search_start (w_g W) + 2 * (B + 1) * words (max_degree (w_g W)) <= length (edge_bits (w_g W)).
  Proof.
    intros (W0 & -> & B & F1 & F2 & F3 & F4 & F5 & F6) E HE HL. cbn [q_G] in E. injection E as ->.
    destruct (built_good a n adj GR cap (w_g W) HE B HL) as ([G1 G2] & _ & _ & _ & G3).
    exists (CLIQUE_LIMIT (w_g W)). split; [lia|]. split; [|split].
    + intros k Hk. split; [|apply (b_deg _ _ _ _ B k Hk)]. intros K P. pose proof (pclique_bound _ _ k K B Hk P). lia.
    + rewrite (b_cur _ _ _ _ B), <- (b_start _ _ _ _ B). auto.
    + destruct HE as (u & v & A). apply (b_space _ _ _ _ B). exists u.
      destruct (gr_simple _ _ _ GR u v A) as (_ & NE & Hu). split; [lia|].
      destruct (sp_spec a nv HS Hself u ltac:(lia)) as [X1 X2].
      assert (I : In v (row a u)) by (rewrite row_in; apply (gra_adj _ _ _ _ _ GR); auto).
      apply In_nth with (d := 0) in I. destruct I as (p & Hp & E). assert (p <> sp a u) by (intros ->; congruence). lia.
  Qed.

  Lemma nfresh_good p m cap W : nfresh p m cap -> q_G p = Some W -> has_edge adj -> bits_live (w_g W) = true -> ngood a nv wt W (bound a).
  Proof.
    intros F E HE HL. pose proof (nfresh_room p m cap W F E HE HL) as (D & R1 & R2 & R3 & R4).
    destruct F as (W0 & -> & B & F1 & F2 & F3 & F4 & F5 & F6). cbn [q_G] in E. injection E as ->.
    destruct (built_good a n adj GR cap (w_g W) HE B HL) as ([G1 G2] & _ & _ & _ & G3).
    split; auto. split; auto; try apply G1.
    - exists D. split; auto. split; auto. rewrite R3. rewrite <- Nat.mul_assoc in R4. lia.
    - intros k Hk. destruct (sp_spec a nv HS Hself k Hk) as [S1 S2]. exists (fun x => x =? sp a k). split; [apply (b_rep _ _ _ _ B k Hk)|]. split.
      + split; [apply Nat.eqb_refl|]. intros p Hp E. apply Nat.eqb_eq in E. auto.
      + intros p q Hp Hq E1 E2 N. apply Nat.eqb_eq in E1, E2. congruence.
    - destruct F6 as [[_ ->]|[? _]]; auto. lia.
    - rewrite F1, <- (vweight_seq n w LW). reflexivity.
    - rewrite F3, map_length, seq_length. auto.
  Qed.

  (** ** Clique weights *)
  Lemma nw_clique_weight_spec W c : n_vert (w_g W) = nv -> w_wt W = 0%Z :: w ->
    exists x, nw_clique_weight rnd W c = Ok x
      /\ ((forall c1 c2, c = c1 ++ c2 -> rnd (weight w c1) = weight w c1) -> x = weight w c).
  Proof.
    intros E1 E2. unfold nw_clique_weight. rewrite E1, E2.
    assert (G : forall c c0 s, exists x, foldM (fun v wt => if v <? nv then x <- rd (0%Z :: w) v;; Ok (rnd (wt + x)%Z) else Ok wt) c s = Ok x
       /\ ((forall c1 c2, c0 ++ c = c1 ++ c2 -> rnd (weight w c1) = weight w c1) -> s = weight w c0 -> x = weight w (c0 ++ c))).
    { clear c. induction c as [|v c IH]; intros c0 s; cbn [foldM]; [exists s; split; auto; rewrite app_nil_r; auto|].
      destruct (Nat.ltb_spec v nv) as [L|L].
      - assert (EV : rd (0%Z :: w) v = Ok (vweight w v)).
        { apply rd_some. unfold vweight. apply nth_error_nth'. cbn [length]. lia. }
        rewrite EV. cbn [bind]. destruct (IH (c0 ++ [v]) (rnd (s + vweight w v)%Z)) as (x & X1 & X2). exists x. split; auto.
        rewrite <- app_assoc in X2. cbn [app] in X2. intros H E. apply X2; auto.
        pose proof (H (c0 ++ [v]) c) as H1. rewrite <- app_assoc in H1. rewrite <- (H1 eq_refl). f_equal. rewrite E, !weight_zsum, map_app.
        rewrite zsum_app. cbn [map zsum fold_right]. lia.
      - cbn [bind]. destruct (IH (c0 ++ [v]) s) as (x & X1 & X2). exists x. split; auto.
        rewrite <- app_assoc in X2. cbn [app] in X2. intros H E. apply X2; auto.
        rewrite E, !weight_zsum, map_app, zsum_app. cbn [map zsum fold_right]. unfold vweight at 3. rewrite nth_overflow by (cbn [length]; lia). lia. }
    destruct (G c [] 0%Z) as (x & X1 & X2). exists x. split; auto.
  Qed.

  Lemma sorted_exact (c : list nat) : sums_exact rnd w -> StronglySorted lt c -> forall c1 c2, c = c1 ++ c2 -> rnd (weight w c1) = weight w c1.
  Proof.
    intros EX HSo c1 c2 ->. apply EX. induction c1 as [|x c1 IH]; [constructor|]. cbn [app] in HSo. inversion HSo as [|? ? S1 S2]; subst. constructor; auto.
    intros I. rewrite Forall_forall in S2. specialize (S2 x). rewrite in_app_iff in S2. specialize (S2 (or_introl I)). lia.
  Qed.

  (** ** One search *)
  Notation exact := (wexact a wt).
  Notation nonneg := (exact /\ forall u, u < nv -> (0 <= wt u)%Z).

  Lemma nsvalid_valid W : nsvalid a nv wt W -> nvalid a nv wt W.
  Proof. intros V v x Hv Hx. eapply nheavy_le; [|apply (V v x Hv Hx)]. lia. Qed.

  Lemma nw_find_spec e W0 mcs heur dfs : npermutes e -> ngood a nv wt W0 mcs ->
    wp (nw_find_max_cliques rnd e W0 0 heur dfs) (fun r => let '(W, cur) := r in ngood a nv wt W mcs /\ ncalled a nv wt W0 W
       /\ cur = (if dfs then nv else 0)
       /\ (heur = false -> (w_size W0 <= w_size W)%Z)
       /\ (nonneg -> nwide a nv wt W0 -> nsvalid a nv wt W0 -> nsvalid a nv wt W
             /\ (dfs = true -> forall v, v < nv -> nheavy a wt v (w_size W)))
       /\ (nonneg -> nsvalid a nv wt W0 -> dfs = true -> (w_limit W0 <= w_size W)%Z \/ forall v, v < nv -> nheavy a wt v (w_size W))).
  Proof.
    intros HP G. unfold nw_find_max_cliques. apply wp_bind.
    assert (H1 : wp (if heur then nh_process_graph rnd (nw_srt e) W0 else Ok W0)
              (fun W => ngood a nv wt W mcs /\ ncalled a nv wt W0 W /\ w_mcs W = w_mcs W0 /\ (heur = false -> W = W0))).
    { destruct heur; [eapply wp_mono; [exact (nh_process_graph_spec a nv wt HC (nw_srt e) W0 mcs HP G)|intros ? (? & ? & ?); do 3 (split; auto); discriminate]|].
      apply wp_ok. split; auto. split; [apply ncalled_refl|auto]. }
    eapply wp_mono; [exact H1|]. clear H1. intros W1 (G1 & C1 & M1 & E1).
    assert (W1w : nwide a nv wt W0 -> nwide a nv wt W1) by (intros WD v Hv; rewrite (nc_lim _ _ _ _ _ C1); apply WD; auto).
    assert (S1 : nsvalid a nv wt W0 -> nsvalid a nv wt W1) by (intros SV v x Hv; rewrite M1; apply SV; auto).
    destruct dfs.
    - eapply wp_mono; [apply (nd_process_graph_spec a nv wt HC (nw_lr e) (nw_junk e) W1 mcs G1)|].
      intros [W i] (-> & G2 & C2 & Z2 & V2 & SV2). split; auto.
      split; [eapply ncalled_trans; [|exact C1|exact C2]; apply (proj1 G1)|]. split; auto. split; [intros H; rewrite (E1 H) in *; auto|].
      split.
      + intros NN WD SV. split; [apply SV2; auto|]. intros _ v Hv.
        destruct (V2 NN (nsvalid_valid _ (S1 SV))) as [L|L]; [|apply L; auto]. eapply nheavy_le; [exact L|]. apply W1w; auto.
      + intros NN SV _. rewrite <- (nc_lim _ _ _ _ _ C1). apply V2; auto. apply nsvalid_valid; auto.
    - apply wp_ok. split; auto. split; auto. split; auto. split; [intros H; rewrite (E1 H); lia|]. split; [|discriminate].
      intros NN WD SV. split; auto. discriminate.
  Qed.

  (** ** get_max_clique *)
  Definition nprepared (W : nwgraph) (lb ub : Z) : nwgraph :=
    mkW (w_g W) (w_wt W) (w_deg W) (w_mcs W) (Z.min ub (w_limit W)) (Z.max lb (w_size W)) (w_loc W).

  Lemma nprepared_good W mcs lb ub : ngood a nv wt W mcs -> ngood a nv wt (nprepared W lb ub) mcs.
  Proof. intros [[X1 X2 X3 X4 X5 X6 X7 X8] Z]. split; [split; auto|auto]. Qed.

  Lemma nw_get_unfold e W m cur0 fin0 lb ub heur dfs : 1 <= n ->
    nw_get_max_clique rnd e (mkQ (Some W) n m cur0 fin0) lb ub heur dfs =
    bind (nw_find_max_cliques rnd e (nprepared W lb ub) 0 heur dfs)
      (fun '(W, cur) => '(W, ans) <- nw_stored W (w_loc W);; x <- nw_clique_weight rnd W ans;;
         Ok (mkQ (Some W) n m cur (n <=? cur), if (x <? lb)%Z then Raise EBounds else Ret ans)).
  Proof.
    intros Hn. unfold nw_get_max_clique, nw_loaded. cbn [q_cur q_G q_nvert q_nedges].
    destruct (Nat.eqb_spec n 0) as [|_]; [lia|].
    assert (EG : mkW (w_g W) (w_wt W) (w_deg W) (w_mcs W) (if (ub <? w_limit W)%Z then ub else w_limit W)
                   (if (w_size W <? lb)%Z then lb else w_size W) (w_loc W) = nprepared W lb ub).
    { unfold nprepared. f_equal; [destruct (Z.ltb_spec ub (w_limit W)); lia|destruct (Z.ltb_spec (w_size W) lb); lia]. }
    rewrite EG. reflexivity.
  Qed.

  Lemma incumbent_root W mcs c : nbase a nv wt c W mcs -> incumbent a wt W -> 1 <= w_loc W < nv.
  Proof. intros G (K & _ & K2 & _). apply (two_root _ K); auto. apply (nb_loc _ _ _ _ _ _ G). Qed.

  (** What a call leaves behind and answers. *)
  Record nasked (W : nwgraph) (mcs : nat -> nat) (lb ub : Z) (heur dfs : bool) (W' : nwgraph) (cur : nat) (c : list nat) : Prop := {
    na_good : ngood a nv wt W' mcs;
    na_called : ncalled a nv wt (nprepared W lb ub) W';
    na_clique : c = [0] /\ w_loc W' = 0 \/ clique n adj c /\ 1 <= w_loc W';
    na_cur : cur = if dfs then nv else 0;
    na_mono : heur = false -> (Z.max lb (w_size W) <= w_size W')%Z;
    na_best : ((exact -> weight w c = w_size W') /\ 1 <= w_loc W') \/ (w_size W' = Z.max lb (w_size W) /\ w_loc W' = w_loc W);
    na_wide : nonneg -> nwide a nv wt (nprepared W lb ub) -> nsvalid a nv wt W -> nsvalid a nv wt W'
             /\ (dfs = true -> all_within n adj w (w_size W'));
    na_any : nonneg -> nsvalid a nv wt W -> dfs = true -> (Z.min ub (w_limit W) <= w_size W')%Z \/ all_within n adj w (w_size W');
    na_block : exists K, wholds a wt (w_g W') (w_loc W') K /\ c = decode a (w_loc W') K
  }.

  Lemma nw_get_core e W mcs m cur0 fin0 lb ub heur dfs : npermutes e -> 1 <= n -> ngood a nv wt W mcs ->
    wp (nw_get_max_clique rnd e (mkQ (Some W) n m cur0 fin0) lb ub heur dfs)
       (fun r => exists W' cur c x, fst r = mkQ (Some W') n m cur (n <=? cur)
          /\ snd r = (if (x <? lb)%Z then Raise EBounds else Ret c) /\ (sums_exact rnd w -> x = weight w c) /\ nasked W mcs lb ub heur dfs W' cur c).
  Proof.
    intros HP Hn G. rewrite nw_get_unfold by auto. apply wp_bind.
    eapply wp_mono; [apply (nw_find_spec e (nprepared W lb ub) mcs heur dfs HP (nprepared_good W mcs lb ub G))|].
    intros [W' i] (G' & C' & I' & Z' & V' & V8). pose proof (proj1 G') as B'. pose proof (nb_loc _ _ _ _ _ _ B') as L'.
    assert (KB : exists K, wholds a wt (w_g W') (w_loc W') K
       /\ (((exact -> weight w (decode a (w_loc W') K) = w_size W') /\ 1 <= w_loc W') \/ (w_size W' = Z.max lb (w_size W) /\ w_loc W' = w_loc W))).
    { destruct (nc_best _ _ _ _ _ C') as [(E1 & E2 & E3)|IN].
      - destruct (nb_bits _ _ _ _ _ _ B' _ L') as (K & HK). exists K. split; auto.
      - pose proof (incumbent_root _ _ _ B' IN). destruct IN as (K & K1 & K2 & K3). exists K. split; auto. left. rewrite decode_weight. split; auto. lia. }
    destruct KB as (K & HK & KB). unfold nw_stored.
    rewrite (stored_decode a n adj GR (w_g W') mcs (w_loc W') K (nb_shape _ _ _ _ _ _ B') L' (proj1 HK)). cbn [bind].
    replace (set_wg W' (w_g W')) with W' by (destruct W'; reflexivity).
    assert (EW : w_wt W' = 0%Z :: w) by (rewrite (nb_wt _ _ _ _ _ _ B'); apply vweight_seq; auto).
    destruct (nw_clique_weight_spec W' (decode a (w_loc W') K) (sh_nv _ _ _ _ (nb_shape _ _ _ _ _ _ B')) EW) as (x & X1 & X2). rewrite X1.
    cbn [bind]. apply wp_ok. cbn [fst snd]. exists W', i, (decode a (w_loc W') K), x. split; auto. split; auto. split.
    { intros EX. apply X2. apply sorted_exact; auto. unfold decode. apply sorted_map; [apply sel_sorted|]. intros y z Iy Iz L.
      apply filter_In in Iz. destruct Iz as [Iz _]. apply in_seq in Iz. apply (nbr_mono a nv HC). lia. }
    split; auto.
    - destruct (Nat.eq_dec (w_loc W') 0) as [E|E]; [left|right].
      + split; auto. rewrite E in *. destruct HK as (_ & [R1 R2] & _). unfold decode. rewrite (gra_len0 a n adj GR) in *.
        destruct (sp_spec a nv HS Hself 0 ltac:(lia)) as [S1 S2]. rewrite (gra_len0 a n adj GR) in S1. replace (sp a 0) with 0 in * by lia.
        unfold members. cbn [seq filter]. rewrite R1. cbn [map]. rewrite S2. auto.
      + split; [|lia]. apply pclique_clique; [lia|]. apply HK.
    - intros NN WD SV. destruct (V' NN WD SV) as [V1 V2]. split; auto. intros D. apply nheavy_all. auto.
    - intros NN SV D. destruct (V8 NN SV D) as [L|L]; [left; exact L|right; apply nheavy_all; auto].
    - eauto.
  Qed.
End Gra.
