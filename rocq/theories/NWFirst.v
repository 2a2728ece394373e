(** NWFirst: which of the heaviest cliques the depth-first search of NWGraph leaves behind (C106). *)
From Verif Require Import Base MBits MUtils MGraph MHeur MApi MNW MNWEnum MNWApi Spec SpecNW SpecNWFirst SpecOrder SpecBits BaseFacts BitsFacts SetFacts SortFacts RowFacts ConstructFacts CardFacts LoadFacts ExportFacts SearchBase StackFacts SearchFacts CliqueFacts FrameFacts FrameInv LexFacts EnumFacts EnumApi NWSum NWBase NWStack NWHeur NWSearch NWFacts NWEnumFacts NWEnumApi ApiFacts NWProps OrderFacts FirstFacts NWSame.
From Coq Require Import Sorting.Sorted Sorting.Permutation.
Local Open Scope nat_scope.
Local Arguments Nat.sub : simpl never.
Local Arguments Nat.mul : simpl never.

(** ** The lexicographic order *)
Lemma lexlt_trans a cur K1 K2 K3 : lexlt a cur K1 K2 -> lexlt a cur K2 K3 -> lexlt a cur K1 K3.
Proof.
  intros (x & X1 & X2 & X3 & X4) (y & Y1 & Y2 & Y3 & Y4). destruct (Nat.lt_total x y) as [L|[->|L]]; [|congruence|].
  - exists x. split; auto. split; auto. split; [rewrite <- Y4 by auto; auto|]. intros z Hz. rewrite X4, Y4 by lia. auto.
  - exists y. split; auto. split; [rewrite X4 by auto; auto|]. split; auto. intros z Hz. rewrite X4, Y4 by lia. auto.
Qed.

Lemma first_or_trans a cur K1 K2 K3 : first_or a cur K1 K2 -> first_or a cur K2 K3 -> first_or a cur K1 K3.
Proof.
  intros [E|L] [E'|L'].
  - left. intros x Hx. rewrite E, E' by auto. auto.
  - right. destruct L' as (x & X1 & X2 & X3 & X4). exists x. split; auto. rewrite E by auto. split; auto. split; auto. intros y Hy. rewrite E by lia. auto.
  - right. destruct L as (x & X1 & X2 & X3 & X4). exists x. split; auto. rewrite <- E' by auto. split; auto. split; auto. intros y Hy. rewrite <- E' by lia. auto.
  - right. eapply lexlt_trans; eauto.
Qed.

(** A set comes before its subsets. *)
Lemma super_first a cur K K' : (forall x, x < rlen a cur -> K x = true -> K' x = true) -> first_or a cur K' K.
Proof.
  intros H. assert (G : forall k, k <= rlen a cur -> (forall x, x < k -> K' x = K x) \/ exists x, x < k /\ K' x = true /\ K x = false /\ forall y, y < x -> K' y = K y).
  { induction k as [|k IH]; intros Hk; [left; intros; lia|]. destruct (IH ltac:(lia)) as [E|(x & X1 & X2)]; [|right; exists x; split; [lia|auto]].
    destruct (K' k) eqn:E1, (K k) eqn:E2.
    - left. intros x Hx. destruct (Nat.eq_dec x k) as [->|]; [congruence|apply E; lia].
    - right. exists k. split; [lia|auto].
    - rewrite H in E1 by (auto; lia). discriminate.
    - left. intros x Hx. destruct (Nat.eq_dec x k) as [->|]; [congruence|apply E; lia]. }
  destruct (G _ (le_n _)) as [E|E]; [left; auto|right; exact E].
Qed.

Section First.
  Variables (a : pairs) (nv : nat) (wt : wts).
  Hypothesis HC : gctx a nv.
  Hypothesis NN : wexact a wt /\ forall u, u < nv -> (0 <= wt u)%Z.
  Let HS := gc_sorted _ _ HC.
  Let Hself := gc_self _ _ HC.
  Notation rnd := (wrnd wt).
  Notation wsm v := (wsum (rlen a v) (pw a wt v)).
  Notation rtd v := (rooted_by (wcand a wt v) a v).

  (** The block of [v] holds a clique of the best weight, the first of its root to which nothing can be added. *)
  Definition nholds (W : nwgraph) (v : nat) : Prop :=
    exists K, wholds a wt (w_g W) v K /\ 2 <= card (rlen a v) K /\ wsm v K = w_size W
      /\ forall K', rtd v K' -> pclique a v K' -> 2 <= card (rlen a v) K' -> closed a v wt K' -> wsm v K' = w_size W -> first_or a v K K'.

  Definition lighter (v : nat) (M : Z) : Prop := forall K, rtd v K -> pclique a v K -> 2 <= card (rlen a v) K -> (wsm v K < M)%Z.

  Definition nleads (W0 W : nwgraph) : Prop :=
    (w_size W = w_size W0 /\ w_loc W = w_loc W0
       /\ forall k, k < search_cur (w_g W0) -> nth k (edge_bits (w_g W)) 0%N = nth k (edge_bits (w_g W0)) 0%N)
    \/ (w_size W0 < w_size W)%Z /\ nholds W (w_loc W) /\ (w_loc W = w_loc W0 \/ forall v, v < nv -> v = w_loc W0 \/ v < w_loc W -> lighter v (w_size W)).

  Lemma heavy_lighter v M M' : (M < M')%Z -> nheavy a wt v M -> lighter v M'.
  Proof. intros L H K R P C. specialize (H K R P C). lia. Qed.

  (** One root. *)
  Lemma nd_leads lr W0 mcs buf cur : ngood a nv wt W0 mcs -> cur < nv -> length buf = max_degree (w_g W0) ->
    wp (nd_process_vertex rnd lr W0 buf cur) (fun r => nlead a wt W0 (fst r) cur).
  Proof.
    intros [G Z] Hc HB. destruct (nbase_room a nv wt W0 mcs _ cur G Hc) as (B & B1 & B2 & B3 & B4 & _).
    eapply wp_mono; [apply (nd_process_vertex_lead a nv cur wt lr W0 mcs B HC Hc (nb_shape _ _ _ _ _ _ G) (nb_wt _ _ _ _ _ _ G)
      (nb_deg _ _ _ _ _ _ G) (nb_mcs _ _ _ _ _ _ G) (nb_eb _ _ _ _ _ _ G) Z B2 B1 B3 buf ltac:(lia))|].
    intros [W buf'] (_ & _ & _ & _ & L). exact L.
  Qed.

  Lemma nleads_step W0 W W' mcs i : ngood a nv wt W mcs -> i < nv -> ncalled a nv wt W W' -> (w_size W0 <= w_size W)%Z -> search_cur (w_g W) = search_cur (w_g W0) -> nlead a wt W W' i -> nleads W0 W ->
    ((w_size W < w_size W')%Z -> i = w_loc W0 \/ forall v, v < nv -> v = w_loc W0 \/ v < i -> nheavy a wt v (w_size W)) -> nleads W0 W'.
  Proof.
    intros [G _] Hi C LE SC NL L H. destruct NL as [(E1 & E2 & E3)|(LT & E & K & R & K1 & K2 & K3 & K4)].
    - unfold nleads. rewrite E1, E2. destruct L as [(L1 & L2 & L3)|(L0 & (K & (R & K1) & K2) & L)]; [left; do 2 (split; auto); intros k Hk; rewrite E3 by lia; auto|right]. split; [lia|]. split; auto. exists K. rewrite E1. split; auto. split; auto.
      eapply rep_nth; [|exact (nc_len _ _ _ _ _ C)|exact R]. intros k Hk. apply E3. pose proof (block_end a nv _ (nb_loc _ _ _ _ _ _ G)).
      pose proof (nb_eb _ _ _ _ _ _ G). unfold in_block in Hk. lia.
    - right. rewrite E. destruct (K4 (proj1 NN) (nonneg_pos a nv wt HC i NN)) as [K5 K6]. split; [lia|]. split.
      + exists K. split; [split; auto|]. auto.
      + destruct (H LT) as [->|H']; auto. right. intros v Hv D. eapply heavy_lighter; [exact LT|auto].
  Qed.

  Lemma nd_first lr junk W0 mcs : ngood a nv wt W0 mcs -> nvalid a nv wt W0 -> wp (nd_process_graph rnd lr junk W0) (fun r => nleads W0 (fst r)).
  Proof.
    intros G0 V0. unfold nd_process_graph. apply wp_bind.
    pose proof (nb_loc _ _ _ _ _ _ (proj1 G0)) as GL.
    eapply wp_mono; [apply wp_and; [apply (nd_step a nv wt HC lr W0 mcs _ _ G0 GL); rewrite map_length, seq_length; auto|
      apply (nd_leads lr W0 mcs _ _ G0 GL); rewrite map_length, seq_length; auto]|].
    intros [W1 buf1] ((G1 & C1 & Z1 & L1 & D1 & V1 & S1) & NL1). cbn [fst] in NL1. apply wp_bind.
    rewrite (sh_nv _ _ _ _ (nb_shape _ _ _ _ _ _ (proj1 G1))).
    apply (wp_for 0 nv _ (fun i '(W, buf) => ngood a nv wt W mcs /\ ncalled a nv wt W0 W /\ (w_size W1 <= w_size W)%Z /\ length buf = max_degree (w_g W)
       /\ nleads W0 W /\ ((w_limit W0 <= w_size W)%Z \/ nvalid a nv wt W /\ forall v, v < i -> nheavy a wt v (w_size W)))); [lia| | |].
    - do 2 (split; auto). split; [lia|]. split; auto. split.
      + apply (nleads_step W0 W0 W1 mcs (w_loc W0)); auto; [lia|left; auto].
      + destruct (V1 NN V0); auto. right. split; auto. intros; lia.
    - intros i [W buf] [_ Hi] (G & C & SZ & LB & L & V).
      destruct (nw_done a nv wt W mcs _ (proj1 G) i Hi) as (x & Hx). rewrite (rd_some _ _ _ Hx). cbn [bind].
      pose proof (nc_lim _ _ _ _ _ C) as LIM.
      destruct ((x <=? w_size W)%Z || (w_limit W <=? w_size W)%Z) eqn:E.
      + apply wp_ok. do 5 (split; auto). destruct V as [|[V2 V3]]; auto.
        apply orb_prop in E. destruct E as [E|E]; apply Z.leb_le in E; [|left; lia].
        right. split; auto. intros v Hv. destruct (Nat.eq_dec v i) as [->|]; [|apply V3; lia].
        eapply nheavy_le; [|apply (V2 i x Hi Hx)]. lia.
      + apply orb_false_elim in E. destruct E as [E1 E2]. apply Z.leb_gt in E1, E2.
        eapply wp_mono; [apply wp_and; [apply (nd_step a nv wt HC lr W mcs buf i G Hi LB)|apply (nd_leads lr W mcs buf i G Hi LB)]|].
        intros [W' buf'] ((G' & C' & SZ' & LB' & D' & V' & S') & NL'). cbn [fst] in NL'.
        split; auto. split; [eapply ncalled_trans; [|exact C|exact C']; apply (proj1 G)|]. split; [lia|]. split; auto. rewrite LIM in *.
        destruct V as [|[V2 V3]]; [lia|]. split.
        * apply (nleads_step W0 W W' mcs i); auto; [lia|apply C|]. intros _. right. intros v Hv [->|Hlt]; auto.
          destruct (D1 NN) as [|D]; [lia|]. eapply nheavy_le; [|exact D]. lia.
        * destruct (V' NN V2) as [|V4]; auto. destruct (D' NN) as [|D4]; auto.
          right. split; auto. intros v Hv. destruct (Nat.eq_dec v i) as [->|]; auto. eapply nheavy_le; [|apply V3; lia]. lia.
    - intros [W buf] (G & C & SZ & LB & L & _). apply wp_ok. exact L.
  Qed.

  (** ** Nothing can be added to the clique found *)
  Lemma close_up v : v < nv -> forall k K, rlen a v <= k + card (rlen a v) K -> rtd v K -> pclique a v K ->
    exists K', (forall x, x < rlen a v -> K x = true -> K' x = true) /\ rtd v K' /\ pclique a v K' /\ closed a v wt K'.
  Proof.
    intros Hv. induction k as [|k IH]; intros K HK R P.
    - exists K. do 3 (split; auto). intros y Hy _ E. exfalso.
      pose proof (card_add (rlen a v) K y Hy E) as CA. pose proof (card_bound (rlen a v) (fun i => (i =? y) || K i)). lia.
    - destruct (existsb (fun y => wcand a wt v y && negb (K y) && forallb (fun x => negb (K x) || padj a v x y) (seq 0 (rlen a v))) (seq 0 (rlen a v))) eqn:E.
      + apply existsb_exists in E. destruct E as (y & Iy & E). apply in_seq in Iy. apply andb_prop in E. destruct E as [E E3]. apply andb_prop in E. destruct E as [E1 E2].
        assert (AD : forall x, x < rlen a v -> K x = true -> padj a v x y = true).
        { intros x Hx Kx. rewrite forallb_forall in E3. specialize (E3 x ltac:(apply in_seq; lia)). rewrite Kx in E3. exact E3. }
        destruct (IH (fun x => (x =? y) || K x)) as (K' & H1 & H2 & H3 & H4).
        * apply negb_true_iff in E2. rewrite (card_add (rlen a v) K y) by (auto; lia). lia.
        * destruct R as [R1 R2]. split; [rewrite R1; apply orb_true_r|]. intros p Hp Ep. apply orb_prop in Ep. destruct Ep as [Ep|Ep]; auto.
          apply Nat.eqb_eq in Ep. subst p. auto.
        * intros p q Hp Hq Ep Eq NE. apply orb_prop in Ep, Eq. destruct Ep as [Ep|Ep], Eq as [Eq|Eq]; try apply Nat.eqb_eq in Ep; try apply Nat.eqb_eq in Eq; subst; auto.
          rewrite (padj_sym a nv HC) by auto. auto.
        * exists K'. split; auto. intros x Hx Kx. apply H1; auto. rewrite Kx. apply orb_true_r.
      + exists K. do 3 (split; auto). intros y Hy Cy Ky.
        destruct (forallb (fun x => negb (K x) || padj a v x y) (seq 0 (rlen a v))) eqn:F.
        * exfalso. rewrite <- not_true_iff_false in E. apply E. apply existsb_exists. exists y. split; [apply in_seq; lia|]. rewrite Cy, Ky, F. auto.
        * assert (X : exists x, In x (seq 0 (rlen a v)) /\ negb (K x) || padj a v x y = false).
          { revert F. clear. induction (seq 0 (rlen a v)) as [|x l IH]; cbn; [discriminate|]. intros F. apply andb_false_iff in F. destruct F as [F|F]; [exists x; auto|].
            destruct (IH F) as (z & I & Hz). exists z. auto. }
          destruct X as (x & Ix & X). apply in_seq in Ix. apply orb_false_elim in X. destruct X as [X1 X2]. exists x. split; [lia|]. split; auto.
          apply negb_false_iff in X1. auto.
  Qed.
End First.

Section Answer.
  Variables (a : pairs) (n : nat) (adj : nat -> nat -> Prop) (w : list Z) (rnd : Z -> Z).
  Hypothesis GR : gra a n adj.
  Hypothesis LW : length w = n.
  Hypothesis SE : sums_exact rnd w.
  Hypothesis NNG : nonnegative w.
  Notation nv := (n + 1).
  Notation wt := (mkwts (vweight w) rnd).
  Let HC := gra_ctx a n adj GR.
  Let HS := gc_sorted _ _ HC.
  Let Hself := gc_self _ _ HC.
  Let EX := exact_sums a n adj w rnd GR LW SE.
  Let NN : wexact a wt /\ forall u, u < nv -> (0 <= wt u)%Z := conj EX (fun u _ => vweight_nonneg w NNG u).

  (** ** Where the search starts *)
  Lemma wbef_after v u : v < nv -> u < nv -> (wbef (dgr a wt) v u = true <-> weighs_after adj w v u).
  Proof.
    intros Hv Hu. unfold weighs_after, wbef. rewrite orb_true_iff, andb_true_iff, Z.ltb_lt, Nat.ltb_lt, Z.eqb_eq. split.
    - intros B xu xv Du Dv.
      rewrite (wdegree_fun adj w _ _ _ Du (row_wdegree a n adj w rnd GR u EX Hu)), (wdegree_fun adj w _ _ _ Dv (row_wdegree a n adj w rnd GR v EX Hv)). exact B.
    - intros C. apply C; apply (row_wdegree a n adj w rnd GR); auto.
  Qed.

  Lemma bnd_decode v : v < nv -> wbnd a wt v = weight w (decode a v (fun p => (p =? sp a v) || wcand a wt v p)).
  Proof.
    intros Hv. destruct (sp_spec a nv HS Hself v Hv) as [S1 S2]. rewrite (decode_weight a w rnd). unfold wbnd. rewrite wexact_rsum by auto. reflexivity.
  Qed.

  Lemma row_later_weight v : v < nv -> later_weight adj w v (wbnd a wt v).
  Proof.
    intros Hv. destruct (sp_spec a nv HS Hself v Hv) as [S1 S2]. exists (decode a v (fun p => (p =? sp a v) || wcand a wt v p)).
    split; [|split; [|symmetry; apply bnd_decode; auto]].
    - apply sorted_nodup. unfold decode. apply sorted_map; [apply sel_sorted|]. intros y z Iy Iz L.
      apply filter_In in Iz. destruct Iz as [Iz _]. apply in_seq in Iz. apply (nbr_mono a nv HC). lia.
    - intros u. rewrite decode_in. split.
      + intros (p & Hp & E & <-). apply orb_prop in E. destruct E as [E|E]; [left; apply Nat.eqb_eq in E; subst p; exact S2|].
        destruct (Nat.eq_dec (nbr a v p) v) as [|NE]; [left; auto|right]. pose proof (nbr_lt a nv HC v p Hp) as Hu.
        split; [|apply wbef_after; auto]. apply (gra_adj _ _ _ _ _ GR). split; [congruence|]. apply row_in, nth_In. exact Hp.
      + intros [-> |[A C]]; [exists (sp a v); rewrite Nat.eqb_refl; auto|].
        pose proof (gr_simple _ _ _ GR v u A) as (A' & NE & _). pose proof (gr_simple _ _ _ GR u v A') as (_ & _ & Hu).
        assert (I : In u (row a v)) by (rewrite row_in; apply (gra_adj _ _ _ _ _ GR); auto).
        apply In_nth with (d := 0) in I. destruct I as (p & Hp & E). exists p. split; auto. split; auto.
        apply orb_true_iff. right. unfold wcand. rewrite E. apply wbef_after; auto. lia.
  Qed.

  Lemma later_weight_fun v x y : later_weight adj w v x -> later_weight adj w v y -> x = y.
  Proof.
    intros (l & N & H & <-) (l' & N' & H' & <-). apply weight_perm, NoDup_Permutation; auto. intros u. rewrite H, H'. tauto.
  Qed.

  (** ** Cliques to which nothing can be added *)
  Lemma closed_saturated v K : 1 <= v < nv -> rooted_by (wcand a wt v) a v K -> pclique a v K -> (closed a v wt K <-> saturated adj w (decode a v K)).
  Proof.
    intros Hv R P. pose proof (pclique_clique a n adj w GR LW v K Hv P) as C. destruct (sp_spec a nv HS Hself v ltac:(lia)) as [S1 S2].
    assert (IV : In v (decode a v K)) by (apply (wdecode_root a nv wt HC v K); auto; lia).
    assert (ST : starts_at adj w (decode a v K) v).
    { apply (starts_before a n adj w rnd GR); auto. split; auto. intros u. apply (wdecode_before a nv wt HC v K u); auto. lia. }
    split.
    - intros CL v' u S A ALL. assert (v' = v) as ->.
      { apply (starts_before a n adj w rnd GR) in S, ST; auto. destruct S as [I H], ST as [_ H'].
        destruct (H v IV) as [->|X]; auto. destruct (H' v' I) as [->|Y]; auto. exfalso. pose proof (wbef_trans _ _ _ _ X Y) as Z. rewrite wbef_irrefl in Z. discriminate. }
      pose proof (ALL v IV) as AV. pose proof (gr_simple _ _ _ GR v u AV) as (A' & NE & _). pose proof (gr_simple _ _ _ GR u v A') as (_ & _ & Hu).
      assert (I : In u (row a v)) by (rewrite row_in; apply (gra_adj _ _ _ _ _ GR); auto).
      apply In_nth with (d := 0) in I. destruct I as (p & Hp & E).
      assert (KP : K p = false).
      { destruct (K p) eqn:KP; auto. exfalso. assert (IU : In u (decode a v K)) by (apply decode_in; exists p; auto).
        pose proof (ALL u IU) as X. apply (gr_simple _ _ _ GR) in X. tauto. }
      assert (CP : wcand a wt v p = true) by (unfold wcand; rewrite E; apply wbef_after; auto; lia).
      destruct (CL p Hp CP KP) as (x & Hx & Kx & Ax). assert (IX : In (nbr a v x) (decode a v K)) by (apply decode_in; exists x; auto).
      pose proof (ALL _ IX) as X. rewrite <- E in X. apply (gra_adj _ _ _ _ _ GR) in X. destruct X as [_ X].
      apply (padj_iff a) in X; auto. congruence.
    - intros SA y Hy Cy Ky.
      destruct (existsb (fun x => K x && negb (padj a v x y)) (seq 0 (rlen a v))) eqn:E.
      + apply existsb_exists in E. destruct E as (x & Ix & E). apply in_seq in Ix. apply andb_prop in E. destruct E as [E1 E2]. exists x. split; [lia|]. split; auto.
        apply negb_true_iff. auto.
      + exfalso. apply (SA v (nbr a v y) ST); [apply wbef_after; auto; [lia|apply (nbr_lt a nv HC); auto]|].
        intros u I. apply decode_in in I. destruct I as (x & Hx & Kx & <-).
        assert (AX : padj a v x y = true).
        { destruct (padj a v x y) eqn:AX; auto. rewrite <- not_true_iff_false in E. destruct E. apply existsb_exists. exists x. split; [apply in_seq; lia|]. rewrite Kx, AX. auto. }
        apply (gra_adj _ _ _ _ _ GR). split; [|apply (padj_iff a); auto]. intros EQ. apply (nbr_inj a nv HC v) in EQ; auto. congruence.
  Qed.

  (** ** The answer *)
  Lemma nw_first_core e W m lb ub cap q c : nfresh a n w rnd (mkQ (Some W) n m 0 false) m cap -> has_edge adj -> bits_live (w_g W) = true -> npermutes e ->
    all_within n adj w ub ->
    nw_get_max_clique rnd e (mkQ (Some W) n m 0 false) lb ub false true = Ok (q, Ret c) -> 2 <= length c ->
    (0 < w_limit W)%Z /\ exists v K, 1 <= v < nv /\ c = decode a v K /\ rooted_by (wcand a wt v) a v K /\ pclique a v K /\ closed a v wt K
      /\ forall d, clique n adj d -> 2 <= length d -> weight w d = weight w c ->
           exists v' K', 1 <= v' < nv /\ d = decode a v' K' /\ rooted_by (wcand a wt v') a v' K'
           /\ (v' <> w_loc W /\ (v = w_loc W \/ v < v') \/ v = v' /\ first_or a v K K').
  Proof.
    intros NF HE HL HP AW E L2. pose proof (has_edge_n _ _ _ GR HE) as Hn.
    pose proof (nfresh_good a n adj w rnd GR LW _ m cap W NF eq_refl HE HL) as G.
    destruct NF as (W1 & EQ & B & F1 & F2 & F3 & F4 & F5 & F6). injection EQ as <-.
    assert (RW : forall v, v < nv -> nheavy a wt v (wbnd a wt v)).
    { intros v Hv K R _ _. apply (rooted_weight a nv v wt HC Hv); auto. intros. apply vweight_nonneg; auto. }
    assert (SV : nsvalid a nv wt W).
    { intros v x Hv Hx. rewrite F3 in Hx. rewrite nth_error_map, (nth_error_nth' _ 0) in Hx by (rewrite seq_length; auto).
      rewrite seq_nth in Hx by auto. cbn [option_map Nat.add] in Hx. injection Hx as <-. apply RW; auto. }
    assert (WD : nwide a nv wt W) by (intros v Hv; eapply nheavy_le; [apply (F5 v Hv)|]; apply RW; auto).
    set (W0 := nprepared W lb ub) in *. pose proof (nprepared_good a n w rnd W (bound a) lb ub G) as G0. fold W0 in G0.
    assert (WD0 : nwide a nv wt W0) by (apply (prepared_wide rnd n adj w a W lb ub GR LW AW WD)).
    rewrite (nw_get_unfold n w rnd) in E by auto. fold W0 in E.
    pose proof (nw_find_spec a n adj w rnd GR LW e W0 (bound a) false true HP G0) as S.
    assert (S2 : wp (nw_find_max_cliques rnd e W0 0 false true) (fun r => nleads a nv wt W0 (fst r))).
    { unfold nw_find_max_cliques. cbn [bind]. apply (nd_first a nv wt HC NN (nw_lr e) (nw_junk e) W0 (bound a)); auto.
      apply (nsvalid_valid a n w rnd LW). exact SV. }
    destruct (nw_find_max_cliques rnd e W0 0 false true) as [[W' i]| |]; try discriminate. cbn [bind ends_with wp fst] in *.
    destruct S as (G' & C' & _ & Z' & V' & _). destruct (V' NN WD0 SV) as [_ AH]. specialize (AH eq_refl).
    pose proof (proj1 G') as B'. pose proof (nb_loc _ _ _ _ _ _ B') as L'.
    assert (EW : w_wt W' = 0%Z :: w) by (rewrite (nb_wt _ _ _ _ _ _ B'); apply vweight_seq; auto).
    unfold nw_stored in E. assert (SW : (0 <= w_size W0)%Z) by (cbn [W0 nprepared w_size]; lia).
    destruct S2 as [(E1 & E2 & E3)|(LT & (K & HK & K2 & K3 & K4) & LD)].
    { exfalso. assert (R : rep (edge_bits (w_g W')) (eb a (w_loc W')) (rlen a (w_loc W')) (fun x => x =? sp a (w_loc W'))).
      { eapply rep_nth; [|exact (nc_len _ _ _ _ _ C')|exact (b_rep _ _ _ _ B _ L')]. intros k Hk. apply E3.
        pose proof (block_end a nv _ L'). pose proof (nb_eb _ _ _ _ _ _ (proj1 G0)). lia. }
      rewrite (stored_decode a n adj GR (w_g W') (bound a) (w_loc W') _ (nb_shape _ _ _ _ _ _ B') L' R) in E. cbn [bind] in E.
      destruct (nw_clique_weight rnd _ _) as [x| |]; try discriminate. cbn [bind] in E. destruct (x <? lb)%Z; [discriminate|]. injection E as _ <-.
      rewrite decode_length, card_single in L2. destruct (_ <? _) in L2; lia. }
    rewrite (stored_decode a n adj GR (w_g W') (bound a) (w_loc W') K (nb_shape _ _ _ _ _ _ B') L' (proj1 HK)) in E. cbn [bind] in E.
    replace (set_wg W' (w_g W')) with W' in E by (destruct W'; reflexivity).
    destruct (nw_clique_weight_spec n w rnd LW W' (decode a (w_loc W') K) (sh_nv _ _ _ _ (nb_shape _ _ _ _ _ _ B')) EW) as (x & X1 & X2).
    rewrite X1 in E. cbn [bind] in E. destruct (x <? lb)%Z; [discriminate|]. injection E as _ <-.
    pose proof (two_root a n adj w GR LW _ K L' K2) as RV. destruct HK as (R & R1 & R2).
    assert (CLK : closed a (w_loc W') wt K).
    { destruct (close_up a nv wt HC (w_loc W') L' (rlen a (w_loc W')) K) as (K' & H1 & H2 & H3 & H4); auto; [lia|].
      assert (C2 : 2 <= card (rlen a (w_loc W')) K') by (pose proof (card_le _ _ _ H1); lia).
      assert (WE : wsum (rlen a (w_loc W')) (pw a wt (w_loc W')) K' = w_size W').
      { pose proof (AH _ L' K' H2 H3 C2). pose proof (wsum_le _ _ K K' (nonneg_pos a nv wt HC (w_loc W') NN) H1). lia. }
      destruct (K4 K' H2 H3 C2 H4 WE) as [EQ|(x1 & Hx & X3 & X4 & _)]; [|rewrite H1 in X4 by auto; discriminate].
      intros y Hy Cy Ky. rewrite EQ in Ky by auto. destruct (H4 y Hy Cy Ky) as (x' & Hx & Kx & Ax). exists x'. rewrite EQ by auto. auto. }
    split.
    { pose proof (rooted_weight a nv (w_loc W') wt HC L' K EX (nonneg_pos a nv wt HC (w_loc W') NN) R1). pose proof (F5 _ L'). lia. }
    exists (w_loc W'), K. do 5 (split; auto). intros d D LD2 WD2. rewrite (decode_weight a w rnd) in WD2.
    destruct (wclique_rooted a n adj w rnd GR LW d D) as (v' & K' & Hv' & _ & R' & P' & C2 & <-); [intros ->; simpl in LD2; lia|].
    rewrite (decode_weight a w rnd) in WD2. exists v', K'. split; auto. split; auto. split; auto.
    destruct (Nat.eq_dec (w_loc W') v') as [<-|NE]; [right; split; auto|left].
    { destruct (close_up a nv wt HC (w_loc W') L' (rlen a (w_loc W')) K') as (K'' & H1 & H2 & H3 & H4); auto; [lia|].
      assert (C3 : 2 <= card (rlen a (w_loc W')) K'') by (pose proof (card_le _ _ _ H1); lia).
      assert (WE : wsum (rlen a (w_loc W')) (pw a wt (w_loc W')) K'' = w_size W').
      { pose proof (AH _ L' K'' H2 H3 C3). pose proof (wsum_le _ _ K' K'' (nonneg_pos a nv wt HC (w_loc W') NN) H1). lia. }
      apply (first_or_trans a (w_loc W') K K''); [apply K4; auto|]. apply super_first; auto. }
    change (w_loc W0) with (w_loc W) in LD. destruct LD as [LD|LD]; [rewrite LD in *; auto|].
    assert (X : ~ (v' = w_loc W \/ v' < w_loc W')).
    { intros X. pose proof (LD v' ltac:(lia) X K' R' P' ltac:(lia)). lia. }
    split; [tauto|]. right. lia.
  Qed.

  (** The lowest of the vertices with the largest bound. *)
  Lemma nw_bounds_first g : edge_list g = map snd a -> vertices g = verts a nv (bound a) -> n_vert g = nv ->
    wp (nw_bounds rnd g (map wt (seq 0 nv)) (map (dgr a wt) (seq 0 nv))) (fun '(_, lim, loc) => forall v, v < loc -> (wbnd a wt v < lim)%Z).
  Proof.
    intros E1 E2 E3. unfold nw_bounds. rewrite E3.
    apply (wp_for 0 nv _ (fun k '(_, lim, loc) => (forall v, v < k -> (wbnd a wt v <= lim)%Z) /\ forall v, v < loc -> (wbnd a wt v < lim)%Z)); [lia| | |].
    - split; intros; lia.
    - intros k [[ms lim] loc] Hk (I1 & I2). pose proof (nw_bound_spec a nv wt HC g (bound a) k E1 E2 ltac:(lia)) as NB. cbn [wrnd] in NB. rewrite NB. cbn [bind].
      destruct (Z.ltb_spec lim (wbnd a wt k)); apply wp_ok; split; auto.
      + intros v Hv. destruct (Nat.eq_dec v k) as [->|]; [lia|]. specialize (I1 v ltac:(lia)). lia.
      + intros v Hv. specialize (I1 v Hv). lia.
      + intros v Hv. destruct (Nat.eq_dec v k) as [->|]; [lia|]. apply I1. lia.
    - intros [[ms lim] loc] [_ H]. exact H.
  Qed.

  Lemma fresh_weightiest W m cap ms : nfresh a n w rnd (mkQ (Some W) n m 0 false) m cap -> nw_bounds rnd (w_g W) (w_wt W) (w_deg W) = Ok (ms, w_limit W, w_loc W) ->
    (0 < w_limit W)%Z -> weightiest n adj w (w_loc W).
  Proof.
    intros (W1 & EQ & B & F1 & F2 & F3 & F4 & F5 & F6) NB LP. injection EQ as <-.
    destruct F6 as [[E _]|(H1 & H2 & H3)]; [lia|].
    assert (EW : w_wt W = map wt (seq 0 nv)) by (rewrite F1, <- (vweight_seq n w LW); reflexivity).
    pose proof (nw_bounds_first (w_g W) (b_el _ _ _ _ B) (b_vs _ _ _ _ B) (b_nv _ _ _ _ B)) as NF. rewrite EW, F2 in NB. rewrite NB in NF. cbn [wp ends_with] in NF.
    assert (H0 : w_loc W <> 0).
    { intros E. rewrite E in H2. rewrite (wbnd_exact a nv _ HC 0 EX ltac:(lia)), (gra_len0 a n adj GR) in H2.
      destruct (sp_spec a nv HS Hself 0 ltac:(lia)) as [S1 S2]. rewrite (gra_len0 a n adj GR) in S1.
      pose proof (wcand_sp a nv wt HC 0 ltac:(lia)) as WS. replace (sp a 0) with 0 in WS by lia.
      rewrite wsum_S, WS in H2. cbn [wsum wf vweight nth] in H2. lia. }
    split; [lia|]. exists (wbnd a wt (w_loc W)). split; [apply row_later_weight; auto|]. split.
    - intros v y Hv L. rewrite (later_weight_fun v y _ L (row_later_weight v ltac:(lia))), H2. apply F5. lia.
    - intros v y Hv L. rewrite (later_weight_fun v y _ L (row_later_weight v ltac:(lia))), H2. apply NF. lia.
  Qed.
End Answer.

Lemma nw_load_bounds rnd n m cap edges w q W : nw_load_graph rnd new_pynw n m cap edges w = Ok q -> q_G q = Some W ->
  exists ms, nw_bounds rnd (w_g W) (w_wt W) (w_deg W) = Ok (ms, w_limit W, w_loc W).
Proof.
  unfold nw_load_graph, nw_construct. destruct (construct n cap edges) as [g| |]; cbn [bind]; try discriminate.
  destruct (nw_degrees rnd g w) as [[ws ds]| |]; cbn [bind]; try discriminate.
  destruct (nw_bounds rnd g ws ds) as [[[ms lim] loc]| |] eqn:E; cbn [bind]; try discriminate. intros EQ. injection EQ as <-. cbn [q_G]. intros EQ. injection EQ as <-.
  exists ms. exact E.
Qed.

Lemma nmade_bounds rnd p n adj w W : nmade rnd p n adj w -> q_G p = Some W -> exists ms, nw_bounds rnd (w_g W) (w_wt W) (w_deg W) = Ok (ms, w_limit W, w_loc W).
Proof.
  intros [rows k ws q HF E|k M ws q HF E].
  - unfold nw_from_edgelist in E. destruct (negb _); [discriminate|]. destruct (read_rows k rows) as [l|]; [|discriminate].
    destruct (nw_load_graph rnd _ _ _ _ _ _) as [p'| |] eqn:EL; cbn [bind] in E; try discriminate. injection E as ->. apply (nw_load_bounds _ _ _ _ _ _ _ _ EL).
  - unfold nw_from_matrix in E. destruct (negb _); [discriminate|]. destruct (negb _); [discriminate|]. destruct (matrix_cells k M) as [l cnt].
    destruct (nw_load_graph rnd _ _ _ _ _ _) as [p'| |] eqn:EL; cbn [bind] in E; try discriminate. injection E as ->. apply (nw_load_bounds _ _ _ _ _ _ _ _ EL).
Qed.

(** ** The theorems *)
Lemma nw_first rnd p n adj w e lb ub q c : nmade rnd p n adj w -> has_edge adj -> nstorage_live p -> sums_exact rnd w -> nonnegative w -> npermutes e ->
  all_within n adj w ub -> nw_get_max_clique rnd e p lb ub false true = Ok (q, Ret c) -> 2 <= length c ->
  clique n adj c /\ all_within n adj w (weight w c) /\ saturated adj w c
  /\ exists s, weightiest n adj w s
     /\ forall d, clique n adj d -> 2 <= length d -> weight w d = weight w c -> d <> c -> found_before adj w s c d.
Proof.
  intros M HE LV SE NN HP AW E L2.
  assert (AWC : all_within n adj w (weight w c)).
  { pose proof (nw_heaviest rnd p n adj w M HE LV SE NN p e lb ub false (or_introl eq_refl) HP AW) as H. rewrite E in H. exact H. }
  destruct (nmade_fresh rnd p n adj w M) as (a & cap & m & GR & LW & NF).
  pose proof NF as (W & EP & _). pose proof (nmade_bounds rnd p n adj w W M ltac:(rewrite EP; reflexivity)) as (ms & NB).
  destruct LV as (g & EG & HL). rewrite EP in EG. cbn [nw_as_pygraph q_G option_map p_G] in EG. injection EG as EG. subst g.
  rewrite EP in NF, E. destruct (nw_first_core a n adj w rnd GR LW SE NN e W m lb ub cap q c NF HE HL HP AW E L2) as (LP & v & K & Hv & -> & R & P & CL & H).
  pose proof (exact_sums a n adj w rnd GR LW SE) as EX. pose proof (gra_ctx a n adj GR) as HC.
  pose proof (pclique_clique a n adj w GR LW v K Hv P) as C. split; auto. split; auto.
  split; [apply (closed_saturated a n adj w rnd GR LW SE NN v K Hv R P); auto|].
  assert (ST : forall v K, 1 <= v < n + 1 -> rooted_by (wcand a (mkwts (vweight w) rnd) v) a v K -> clique n adj (decode a v K) -> starts_at adj w (decode a v K) v).
  { intros u Q Hu RQ CQ. apply (starts_before a n adj w rnd GR); auto. split; [apply (wdecode_root a (n + 1) (mkwts (vweight w) rnd) HC u Q); auto; lia|].
    intros x. apply (wdecode_before a (n + 1) (mkwts (vweight w) rnd) HC u Q x); auto. lia. }
  exists (w_loc W). split; [apply (fresh_weightiest a n adj w rnd GR LW SE NN W m cap ms NF NB LP)|].
  intros d D LD WD NE. destruct (H d D LD WD) as (v' & K' & Hv' & -> & R' & X). exists v, v'.
  split; [apply ST; auto|]. split; [apply ST; auto|]. destruct X as [X|[<- X]]; [left; exact X|right]. split; auto.
  apply (first_lex a n adj GR); auto.
Qed.

(** ** The answer is unique *)
Lemma weightiest_one n adj w s s' : weightiest n adj w s -> weightiest n adj w s' -> s = s'.
Proof.
  assert (H : forall s s', weightiest n adj w s -> weightiest n adj w s' -> s < s' -> False).
  { intros u u' (R & k & L & M & _) (R' & k' & L' & _ & M') LT. pose proof (M' u k ltac:(lia) L). pose proof (M u' k' ltac:(lia) L'). lia. }
  intros R R'. destruct (Nat.lt_total s s') as [L|[L|L]]; auto; exfalso; eauto.
Qed.

Lemma found_asym rnd p n adj w s c d : nmade rnd p n adj w -> clique n adj c -> clique n adj d -> found_before adj w s c d -> found_before adj w s d c -> False.
Proof.
  intros M C D (v & v' & O & O' & X) (u & u' & Q & Q' & Y).
  assert (E1 : v = u') by (eapply starts_one; [exact M|exact C|exact O|exact Q']).
  assert (E2 : v' = u) by (eapply starts_one; [exact M|exact D|exact O'|exact Q]). subst u' u.
  destruct X as [X|[-> X]], Y as [Y|[E Y]]; try lia. exact (lex_asym _ _ X Y).
Qed.

Lemma nw_first_same rnd rnd' p p' n adj adj' w e e' lb lb' ub ub' q q' c c' : nmade rnd p n adj w -> nmade rnd' p' n adj' w -> (forall u v, adj u v <-> adj' u v) ->
  has_edge adj -> nstorage_live p -> nstorage_live p' -> sums_exact rnd w -> sums_exact rnd' w -> nonnegative w -> npermutes e -> npermutes e' ->
  all_within n adj w ub -> all_within n adj w ub' ->
  nw_get_max_clique rnd e p lb ub false true = Ok (q, Ret c) -> nw_get_max_clique rnd' e' p' lb' ub' false true = Ok (q', Ret c') ->
  2 <= length c -> 2 <= length c' -> c = c'.
Proof.
  intros M M' EA HE LV LV' SE SE' NN HP HP' AW AW' E E' L L'.
  assert (HE' : has_edge adj') by (destruct HE as (u & v & A); exists u, v; apply EA; auto).
  assert (CI : forall d, clique n adj d <-> clique n adj' d).
  { intros d. split; intros (C1 & C2 & C3); (split; [exact C1|split; [exact C2|]]); intros x y I J N; apply EA; auto. }
  assert (WI : forall v x, wdegree adj w v x <-> wdegree adj' w v x).
  { intros v x. split; intros (l & N & H & X); exists l; (split; [exact N|split; [|exact X]]); intros u; rewrite H, EA; tauto. }
  assert (SI : forall d v, starts_at adj w d v <-> starts_at adj' w d v).
  { intros d v. split; intros (I & H); (split; [exact I|]); intros u xv xu U NE XV XU; apply (H u); auto; apply WI; auto. }
  assert (AI : forall v u, weighs_after adj w v u <-> weighs_after adj' w v u).
  { intros v u. split; intros H xu xv XU XV; apply H; apply WI; auto. }
  assert (LI : forall v x, later_weight adj w v x <-> later_weight adj' w v x).
  { intros v x. split; intros (l & N & H & X); exists l; (split; [exact N|split; [|exact X]]); intros u; rewrite H, EA, AI; tauto. }
  assert (WW : all_within n adj' w ub') by (intros d C; apply AW'; apply CI; auto).
  destruct (nw_first rnd p n adj w e lb ub q c M HE LV SE NN HP AW E L) as (C & AC & _ & s & S & H).
  destruct (nw_first rnd' p' n adj' w e' lb' ub' q' c' M' HE' LV' SE' NN HP' WW E' L') as (C' & AC' & _ & s' & S' & H').
  assert (S2 : weightiest n adj w s').
  { destruct S' as (R & x & X1 & X2 & X3). split; auto. exists x. split; [apply LI; auto|]. split; intros v y Hv Y; [apply (X2 v)|apply (X3 v)]; auto; apply LI; auto. }
  pose proof (weightiest_one n adj w s s' S S2) as <-.
  assert (EQ : weight w c = weight w c').
  { apply CI in C'. pose proof (AC c' C' L'). pose proof (AC' c ltac:(apply CI; auto) L). lia. }
  destruct (list_eq_dec Nat.eq_dec c c') as [|NE]; auto. exfalso. apply (found_asym rnd p n adj w s c c' M C); [apply CI; auto| |].
  - apply H; auto. apply CI; auto.
  - destruct (H' c ltac:(apply CI; auto) L EQ NE) as (v & v' & O & O' & X). exists v, v'. rewrite !SI. auto.
Qed.
