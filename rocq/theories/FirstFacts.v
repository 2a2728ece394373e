(** FirstFacts: which of the largest cliques the depth-first searches leave behind (C79). *)
From Verif Require Import Base MBits MUtils MGraph MHeur MStack MRec MEnum MApi Spec SpecBits SpecNW SpecCont SpecOrder SpecFirst BaseFacts BitsFacts SetFacts SortFacts RowFacts ConstructFacts CardFacts LoadFacts SearchBase FrameFacts FrameInv LexFacts StackFacts RecFacts HeurFacts SearchFacts CliqueFacts ApiFacts EnumFacts EnumApi SearchProps ExportFacts.
From Coq Require Import Sorting.Sorted Sorting.Permutation.
Local Open Scope nat_scope.
Local Arguments Nat.sub : simpl never.
Local Arguments Nat.mul : simpl never.

Lemma wp_and {A} (o : outcome A) (P Q : A -> Prop) : wp o P -> wp o Q -> wp o (fun x => P x /\ Q x).
Proof. destruct o; cbn; auto. Qed.

Section First.
  Variables (a : pairs) (nv : nat).
  Hypothesis HC : gctx a nv.
  Let HS := gc_sorted _ _ HC.
  Let Hself := gc_self _ _ HC.
  (** How the cliques of one root are compared. *)
  Variable ord : nat -> (nat -> bool) -> (nat -> bool) -> Prop.

  (** The block of [v] holds a clique of the best size, the first of its root. *)
  Definition holds (g : graph) (v : nat) : Prop :=
    exists K, rep (edge_bits g) (eb a v) (rlen a v) K /\ rooted a v K /\ pclique a v K /\ card (rlen a v) K = CUR_MAX_SIZE g
      /\ forall K', rooted a v K' -> pclique a v K' -> card (rlen a v) K' = CUR_MAX_SIZE g -> ord v K K'.

  (** Nothing was found since [g0], or the first of the largest cliques found. *)
  Definition leads (g0 g : graph) : Prop :=
    CUR_MAX_SIZE g = CUR_MAX_SIZE g0 \/ holds g (CUR_MAX_LOC g)
      /\ (CUR_MAX_LOC g = CUR_MAX_LOC g0
          \/ forall v, v < nv -> v = CUR_MAX_LOC g0 \/ v < CUR_MAX_LOC g -> no_larger a v (CUR_MAX_SIZE g - 1)).

  Lemma holds_called g g' : CUR_MAX_LOC g < nv -> called a nv g g' -> CUR_MAX_SIZE g' = CUR_MAX_SIZE g -> holds g (CUR_MAX_LOC g) -> holds g' (CUR_MAX_LOC g').
  Proof.
    intros HL C E (K & R & H). destruct (ca_best _ _ _ _ C) as [(_ & E2 & E3)|(E2 & _)]; [|lia]. rewrite E2. exists K. rewrite E. split; auto.
    eapply rep_nth; [|exact (ca_len _ _ _ _ C)|exact R]. intros k Hk. apply E3. pose proof (block_end a nv _ HL). lia.
  Qed.

  (** One more root. *)
  Lemma leads_step g0 g g' i : CUR_MAX_LOC g < nv -> i < nv -> called a nv g g' -> CUR_MAX_SIZE g0 <= CUR_MAX_SIZE g -> leads g0 g ->
    (CUR_MAX_SIZE g < CUR_MAX_SIZE g' -> CUR_MAX_LOC g' = i /\ holds g' i
       /\ (i = CUR_MAX_LOC g0 \/ forall v, v < nv -> v = CUR_MAX_LOC g0 \/ v < i -> no_larger a v (CUR_MAX_SIZE g))) -> leads g0 g'.
  Proof.
    intros HL Hi C LE L H. pose proof (called_le a nv _ _ C) as CL. destruct (Nat.eq_dec (CUR_MAX_SIZE g') (CUR_MAX_SIZE g)) as [E|NE].
    - destruct L as [L|[L1 L2]]; [left; lia|right]. split; [eapply holds_called; eauto|].
      destruct (ca_best _ _ _ _ C) as [(_ & E2 & _)|(E2 & _)]; [|lia]. rewrite E, E2. auto.
    - destruct (H ltac:(lia)) as (H1 & H2 & H3). right. rewrite H1. split; auto. destruct H3 as [H3|H3]; auto. right.
      intros v Hv D. eapply no_larger_le; [|apply H3; auto]. lia.
  Qed.

  (** The stack search, if it does this for one root. *)
  Hypothesis Hrow0 : rlen a 0 = 1.

  Lemma sd_first lr g0 mcs0 :
    (forall g mcs cur, goodR false a nv g mcs -> cur < nv -> wp (sd_process_vertex lr g cur) (fun g' => CUR_MAX_SIZE g' = CUR_MAX_SIZE g \/ holds g' cur)) ->
    good a nv g0 mcs0 -> valid a nv g0 mcs0 -> wp (sd_process_graph lr g0) (fun r => leads g0 (fst r)).
  Proof.
    intros HO G0 V0. unfold sd_process_graph. apply wp_bind.
    pose proof (go_loc _ _ _ _ _ (proj1 G0)) as GL.
    eapply wp_mono; [apply wp_and; [apply (sd_step a nv HC lr g0 mcs0 _ G0 GL)|apply (HO g0 mcs0 _ G0 GL)]|].
    intros g1 ((mcs1 & G1 & C1 & L1 & D1 & V1 & _) & H1). apply wp_bind. pose proof (called_le a nv _ _ C1) as CL1.
    rewrite (sh_nv _ _ _ _ (go_shape _ _ _ _ _ (proj1 G1))).
    apply (wp_for 0 nv _ (fun i g => exists mcs, good a nv g mcs /\ called a nv g1 g /\ leads g0 g
       /\ (CLIQUE_LIMIT g0 <= CUR_MAX_SIZE g1 -> g = g1)
       /\ (CLIQUE_LIMIT g0 <= CUR_MAX_SIZE g \/ valid a nv g mcs /\ forall v, v < i -> no_larger a v (CUR_MAX_SIZE g)))); [lia| | |].
    - exists mcs1. split; auto. split; [apply called_refl|]. split; [|split; auto].
      + apply (leads_step g0 g0 g1 (CUR_MAX_LOC g0)); auto; [left; auto|]. intros LT. split; auto. split; auto. destruct H1; [lia|auto].
      + destruct (V1 V0); auto. right. split; auto. intros; lia.
    - intros i g [_ Hi] (mcs & G & C & L & LL & V). rewrite (good_rd a nv g mcs i G Hi). cbn [bind mkvert vmcs].
      assert (LIM : CLIQUE_LIMIT g = CLIQUE_LIMIT g0).
      { rewrite (core_lim _ _ (ca_core _ _ _ _ C)). apply core_lim, (ca_core _ _ _ _ C1). }
      destruct ((mcs i <=? CUR_MAX_SIZE g) || (CLIQUE_LIMIT g <=? CUR_MAX_SIZE g)) eqn:E.
      + apply wp_ok. exists mcs. split; auto. split; auto. split; auto. split; auto. destruct V as [V|[V V']]; auto.
        apply orb_prop in E. destruct E as [E|E]; apply Nat.leb_le in E; [|left; lia]. right. split; auto.
        intros v Hlt. destruct (Nat.eq_dec v i) as [->|]; [|apply V'; lia]. eapply no_larger_le; [|apply (V i Hi)]. lia.
      + apply orb_false_elim in E. destruct E as [E1 E2]. apply Nat.leb_gt in E1, E2.
        eapply wp_mono; [apply wp_and; [apply (sd_step a nv HC lr g mcs i G Hi)|apply (HO g mcs i G Hi)]|].
        intros g' ((mcs' & G' & C' & L' & D' & V' & _) & H'). exists mcs'. split; auto.
        pose proof (called_le _ _ _ _ C') as CL. pose proof (called_le _ _ _ _ C) as CL0.
        destruct V as [V|[V2 V3]]; [lia|]. rewrite LIM in *.
        split; [eapply called_trans; [intros; apply (proj1 G)|exact C|exact C']|]. split; [|split; [intros; lia|]].
        * apply (leads_step g0 g g' i); auto; [apply (proj1 G)|lia|]. intros LT. split; auto. split; [destruct H'; [lia|auto]|].
          right. intros v Hv [->|Hlt]; auto. destruct D1 as [D1|D1]; [lia|]. eapply no_larger_le; [|exact D1]. lia.
        * destruct (V' V2) as [V4|V4]; [left; lia|]. destruct D' as [D'|D']; [left; lia|]. right. split; auto.
          intros v Hlt. destruct (Nat.eq_dec v i) as [->|]; auto. eapply no_larger_le; [|apply V3; lia]. lia.
    - intros g (mcs & G & C & L & _). apply wp_ok. exact L.
  Qed.

  Lemma rec_first clk g0 mcs0 : ~ late clk ->
    (forall g mcs cur t, goodR false a nv g mcs -> cur < nv -> wp (rec_process_vertex clk g cur t) (fun r => CUR_MAX_SIZE (fst r) = CUR_MAX_SIZE g \/ holds (fst r) cur)) ->
    good a nv g0 mcs0 -> valid a nv g0 mcs0 -> wp (rec_process_graph clk 0 g0) (fun r => leads g0 (fst r)).
  Proof.
    intros NL HO G0 V0. unfold rec_process_graph. apply wp_bind.
    pose proof (go_loc _ _ _ _ _ (proj1 G0)) as GL.
    eapply wp_mono; [apply wp_and; [apply (rec_step a nv HC clk g0 mcs0 _ 0 eq_refl G0 GL)|apply (HO g0 mcs0 _ 0 G0 GL)]|].
    intros [g1 t1] ((T1 & mcs1 & G1 & C1 & L1 & D1 & V1 & _) & H1). cbn [fst snd] in *. pose proof (called_le a nv _ _ C1) as CL1.
    assert (FL : forall t t', ~ fired clk t t') by (intros t t' (k & _ & Hk); apply NL; exists k; auto).
    rewrite (sh_nv _ _ _ _ (go_shape _ _ _ _ _ (proj1 G1))).
    apply (wp_loopN_rel _ _ (fun s n => let '(g, i, t) := s in n = nv - i /\ exists mcs, good a nv g mcs /\ called a nv g1 g /\ leads g0 g
       /\ (CLIQUE_LIMIT g0 <= CUR_MAX_SIZE g1 -> g = g1)
       /\ (CLIQUE_LIMIT g0 <= CUR_MAX_SIZE g \/ valid a nv g mcs /\ forall v, v < i -> v < nv -> no_larger a v (CUR_MAX_SIZE g))) _ (nv - 0)); [| lia |].
    - split; auto. exists mcs1. split; auto. split; [apply called_refl|]. split; [|split; auto].
      + apply (leads_step g0 g0 g1 (CUR_MAX_LOC g0)); auto; [left; auto|]. intros LT. split; auto. split; auto. destruct H1; [lia|auto].
      + destruct (V1 V0) as [F|[F|F]]; [destruct (FL _ _ F)|auto|]. right. split; auto. intros; lia.
    - intros [[g i] t] n (En & mcs & G & C & L & LL & V).
      assert (LIM : CLIQUE_LIMIT g = CLIQUE_LIMIT g0).
      { rewrite (core_lim _ _ (ca_core _ _ _ _ C)). apply core_lim, (ca_core _ _ _ _ C1). }
      rewrite (sh_nv _ _ _ _ (go_shape _ _ _ _ _ (proj1 G))).
      destruct (Nat.ltb_spec i nv) as [Hi|Hi]; [|apply wp_ok; exact L].
      rewrite (good_rd a nv g mcs i G Hi). cbn [bind mkvert vmcs].
      destruct ((mcs i <=? CUR_MAX_SIZE g) || (CLIQUE_LIMIT g <=? CUR_MAX_SIZE g)) eqn:E.
      + apply wp_ok. exists (nv - (i + 1)). split; [lia|]. split; auto. exists mcs. split; auto. split; auto. split; auto. split; auto. destruct V as [V|[V V']]; auto.
        apply orb_prop in E. destruct E as [E|E]; apply Nat.leb_le in E; [|left; lia]. right. split; auto.
        intros v Hlt Hlt2. destruct (Nat.eq_dec v i) as [->|]; [|apply V'; lia]. eapply no_larger_le; [|apply (V i Hi)]. lia.
      + apply orb_false_elim in E. destruct E as [E1 E2]. apply Nat.leb_gt in E1, E2.
        destruct (clk t) eqn:EC; [destruct NL; exists t; auto|].
        apply wp_bind. eapply wp_mono; [apply wp_and; [apply (rec_step a nv HC clk g mcs i (S t) eq_refl G Hi)|apply (HO g mcs i (S t) G Hi)]|].
        intros [g' t'] ((T' & mcs' & G' & C' & L' & D' & V' & _) & H'). cbn [fst snd] in *. apply wp_ok.
        exists (nv - (i + 1)). split; [lia|]. split; auto. exists mcs'. split; auto.
        pose proof (called_le _ _ _ _ C') as CL. pose proof (called_le _ _ _ _ C) as CL0.
        destruct V as [V|[V2 V3]]; [lia|]. rewrite LIM in *.
        split; [eapply called_trans; [intros; apply (proj1 G)|exact C|exact C']|]. split; [|split; [intros; lia|]].
        * apply (leads_step g0 g g' i); auto; [apply (proj1 G)|lia|]. intros LT. split; auto. split; [destruct H'; [lia|auto]|].
          right. intros v Hv [->|Hlt]; [|auto]. destruct D1 as [D1|[D1|D1]]; [destruct (FL _ _ D1)|lia|]. eapply no_larger_le; [|exact D1]. lia.
        * destruct (V' V2) as [V4|[V4|V4]]; [destruct (FL _ _ V4)|left; lia|]. destruct D' as [D'|[D'|D']]; [destruct (FL _ _ D')|left; lia|]. right. split; auto.
          intros v Hlt Hlt2. destruct (Nat.eq_dec v i) as [->|]; auto. eapply no_larger_le; [|apply V3; lia]. lia.
  Qed.
End First.

(** ** One root *)
Lemma sd_holds a nv lr g mcs cur : gctx a nv -> goodR false a nv g mcs -> cur < nv ->
  wp (sd_process_vertex lr g cur) (fun g' => CUR_MAX_SIZE g' = CUR_MAX_SIZE g \/ holds a (last_or a) g' cur).
Proof.
  intros HC G Hc. destruct (good_room_s a nv g mcs _ cur (proj1 G) Hc) as [R1 R2].
  eapply wp_mono; [apply (sd_process_vertex_full a nv cur lr g mcs HC Hc (go_shape _ _ _ _ _ (proj1 G)) (go_eb _ _ _ _ _ (proj1 G)) (proj2 G) R1)|].
  intros g' (_ & _ & B). exact B.
Qed.

Lemma rec_holds a nv clk g mcs cur t : gctx a nv -> ~ late clk -> goodR false a nv g mcs -> cur < nv ->
  wp (rec_process_vertex clk g cur t) (fun r => CUR_MAX_SIZE (fst r) = CUR_MAX_SIZE g \/ holds a (first_or a) (fst r) cur).
Proof.
  intros HC NL G Hc. destruct (good_room_s a nv g mcs _ cur (proj1 G) Hc) as [R1 R2]. specialize (R2 eq_refl).
  eapply wp_mono; [apply (rec_process_vertex_full a nv cur g mcs clk HC Hc (go_shape _ _ _ _ _ (proj1 G)) (go_eb _ _ _ _ _ (proj1 G)) (proj2 G) R2)|].
  intros r (_ & _ & _ & [B|B]); [destruct (NL B)|exact B].
Qed.

Section Answer.
  Variables (a : pairs) (n : nat) (adj : nat -> nat -> Prop).
  Hypothesis GR : gra a n adj.
  Notation nv := (n + 1).
  Let HC := gra_ctx a n adj GR.
  Let HS := gc_sorted _ _ HC.
  Let Hself := gc_self _ _ HC.

  (** ** Where the search starts *)
  Lemma before_after v u : v < nv -> u < nv -> (before a v u = true <-> comes_after adj v u).
  Proof.
    intros Hv Hu. pose proof (len_pos a nv HS Hself u Hu). pose proof (len_pos a nv HS Hself v Hv).
    unfold comes_after, before. rewrite orb_true_iff, andb_true_iff, !Nat.ltb_lt, Nat.eqb_eq. split.
    - intros B du dv Du Dv.
      rewrite (degree_fun adj _ _ _ Du (row_degree a n adj GR u Hu)), (degree_fun adj _ _ _ Dv (row_degree a n adj GR v Hv)). lia.
    - intros C. specialize (C _ _ (row_degree a n adj GR u Hu) (row_degree a n adj GR v Hv)). lia.
  Qed.

  Lemma row_later v : v < nv -> later_neighbours adj v (bound a v - 1).
  Proof.
    intros Hv. exists (filter (before a v) (row a v)). split; [apply NoDup_filter, sorted_nodup, row_sorted, HS|]. split.
    - intros u. rewrite filter_In, row_in. split.
      + intros [I B]. assert (u <> v) by (intros ->; rewrite before_irrefl in B; discriminate).
        pose proof I as J. apply (gr_in _ _ _ GR) in J. destruct J as (_ & Hu & [E|A]); [congruence|]. split; auto. apply before_after; auto. lia.
      + intros [A C]. pose proof (gr_simple _ _ _ GR v u A) as (A' & NE & _). pose proof (gr_simple _ _ _ GR u v A') as (_ & _ & Hu).
        split; [apply (gra_adj _ _ _ _ _ GR); auto|]. apply before_after; auto. lia.
    - rewrite <- (filter_seq_nth (before a v)). unfold bound. rewrite Nat.sub_succ, Nat.sub_0_r. reflexivity.
  Qed.

  Lemma later_fun v k k' : later_neighbours adj v k -> later_neighbours adj v k' -> k = k'.
  Proof.
    intros (l & N & H & <-) (l' & N' & H' & <-). apply Permutation_length, NoDup_Permutation; auto. intros x. rewrite H, H'. tauto.
  Qed.

  Lemma richest_one s s' : richest n adj s -> richest n adj s' -> s = s'.
  Proof.
    assert (H : forall s s', richest n adj s -> richest n adj s' -> s < s' -> False).
    { intros u u' (R & k & L & M & _) (R' & k' & L' & _ & M') LT. pose proof (M' u k ltac:(lia) L). pose proof (M u' k' ltac:(lia) L'). lia. }
    intros R R'. destruct (Nat.lt_total s s') as [L|[L|L]]; auto; exfalso; eauto.
  Qed.

  Lemma built_richest cap g : built a nv cap g -> 1 <= CUR_MAX_LOC g -> richest n adj (CUR_MAX_LOC g).
  Proof.
    intros B HL. destruct (b_loc _ _ _ _ B ltac:(lia)) as [L1 L2]. split; [lia|]. exists (bound a (CUR_MAX_LOC g) - 1).
    split; [apply row_later; auto|]. split.
    - intros v m Hv L. rewrite (later_fun _ _ _ L (row_later v ltac:(lia))). pose proof (b_lim _ _ _ _ B v ltac:(lia)). lia.
    - intros v m Hv L. rewrite (later_fun _ _ _ L (row_later v ltac:(lia))). pose proof (b_first _ _ _ _ B v ltac:(lia)).
      assert (1 <= bound a v) by (unfold bound; lia). lia.
  Qed.

  (** ** The answer *)
  Lemma get_first ord e cap g m lb ub cont q c : built a nv cap g -> has_edge adj -> bits_live g = true -> lawful e lb -> never_late e ->
    (forall d, clique n adj d -> length d <= ub) -> (exists d, clique n adj d /\ length d = 2) ->
    wp (find_max_cliques e (prepared g lb ub) 0 false true) (fun r => leads a nv ord (prepared g lb ub) (fst r)) ->
    get_max_clique e (mkP (Some g) n m 0 false) lb ub false true cont = Ok (q, Ret c) ->
    exists v K, 1 <= v < nv /\ c = decode a v K /\ rooted a v K /\ pclique a v K /\ 2 <= card (rlen a v) K
      /\ forall d, clique n adj d -> length d = length c -> exists v' K', 1 <= v' < nv /\ d = decode a v' K' /\ rooted a v' K' /\ pclique a v' K'
           /\ card (rlen a v') K' = card (rlen a v) K
           /\ (v' <> CUR_MAX_LOC g /\ (v = CUR_MAX_LOC g \/ v < v') \/ v = v' /\ ord v K K').
  Proof.
    intros B HE HL LA NL UB (d2 & D2 & L2) LW E. destruct (built_good a n adj GR cap g HE B HL) as (G & Z & WD & ST & _).
    pose proof (has_edge_n a n adj GR HE) as Hn. set (g0 := prepared g lb ub) in *.
    rewrite get_unfold in E by auto. replace (if cont then 0 else 0) with 0 in E by (destruct cont; auto).
    replace (if cont && negb (0 =? 0) then false else false) with false in E by (destruct (cont && negb (0 =? 0)); auto). fold g0 in E.
    pose proof (find_max_cliques_spec a n adj GR e g0 (bound a) 0 false true (proj1 LA) (prepared_good a n g (bound a) lb ub G)) as W.
    destruct (find_max_cliques e g0 0 false true) as [[g' i]| |]; try discriminate. cbn [bind ends_with wp fst snd] in *.
    destruct W as (mcs' & G' & C' & Z' & _ & F2 & _). destruct (F2 eq_refl NL) as [_ F3]. clear F2.
    specialize (F3 (bound_svalid a n)).
    assert (ZZ : nz a g').
    { apply Z'; [|apply prepared_nz; auto]. destruct LA as [_ [HL'|HL']]; auto. left. cbn [g0 prepared set_limit set_best CUR_MAX_SIZE]. lia. }
    pose proof (proj1 G') as B'. pose proof (go_loc _ _ _ _ _ B') as LOC'.
    assert (MAX : forall d, clique n adj d -> 2 <= length d -> length d <= CUR_MAX_SIZE g').
    { intros d D L. destruct F3 as [F|F].
      - etransitivity; [|exact F]. cbn [g0 prepared set_limit CLIQUE_LIMIT]. apply Nat.min_glb; [apply UB; auto|].
        apply (no_larger_clique a n adj GR); auto.
      - apply (no_larger_clique a n adj GR); auto. intros v Hv. apply F; auto. right. lia. }
    pose proof (MAX d2 D2 ltac:(lia)) as M2. rewrite L2 in M2.
    destruct LW as [LW|[(K & R & K1 & K2 & K3 & K4) LW]].
    { (* nothing was found *)
      exfalso. assert (E0 : CUR_MAX_SIZE g0 = lb) by (cbn [g0 prepared set_limit set_best CUR_MAX_SIZE]; rewrite (b_max _ _ _ _ B); lia).
      destruct (ca_best _ _ _ _ C') as [(_ & X2 & X3)|(X2 & _)]; [|lia].
      assert (S1 : stores a g' (CUR_MAX_LOC g') 1).
      { rewrite X2. destruct ST as (K & R & H). exists K. split; auto. cbn [g0 prepared set_limit set_best CUR_MAX_LOC].
        eapply rep_nth; [|exact (ca_len _ _ _ _ C')|exact R]. intros k Hk. apply X3.
        pose proof (block_end a nv (CUR_MAX_LOC g) (go_loc _ _ _ _ _ (proj1 G))). lia. }
      destruct (stored_clique_spec a n adj GR g' mcs' (CUR_MAX_LOC g') 1 (go_shape _ _ _ _ _ B')) as (c' & X4 & _ & X5); auto.
      { destruct ZZ. lia. }
      rewrite X4 in E. cbn [bind] in E. destruct (Nat.ltb_spec (length c') lb); [discriminate|]. lia. }
    rewrite (stored_decode a n adj GR g' mcs' _ K (go_shape _ _ _ _ _ B') LOC' R) in E. cbn [bind] in E.
    destruct (length (decode a (CUR_MAX_LOC g') K) <? lb); [discriminate|]. injection E as _ <-.
    exists (CUR_MAX_LOC g'), K. split; [destruct ZZ; lia|]. split; auto. split; auto. split; auto. split; [lia|].
    intros d D EL. assert (LC : length (decode a (CUR_MAX_LOC g') K) = CUR_MAX_SIZE g') by (unfold decode; rewrite map_length; exact K3).
    destruct (clique_rooted a n adj GR d D) as (v' & K' & Hv' & _ & R' & P' & C2 & E2); [intros ->; simpl in EL; lia|].
    exists v', K'. split; auto. split; auto. split; auto. split; auto. split; [lia|].
    destruct (Nat.eq_dec (CUR_MAX_LOC g') v') as [<-|NE]; [right; split; auto; apply K4; auto; lia|left].
    change (CUR_MAX_LOC g0) with (CUR_MAX_LOC g) in LW. destruct LW as [LW|LW]; [rewrite LW in *; auto|].
    assert (X : ~ (v' = CUR_MAX_LOC g \/ v' < CUR_MAX_LOC g')).
    { intros X. pose proof (LW v' ltac:(lia) X K' R' P' ltac:(lia)). lia. }
    split; [tauto|]. right. lia.
  Qed.

  (** ** Positions and vertices *)
  Lemma tops_greatest v K x : rooted a v K -> v < nv -> tops a v K x -> greatest_but v (decode a v K) (nbr a v x).
  Proof.
    intros RT Hv (X1 & X2 & X3 & X4). destruct (sp_spec a nv HS Hself v Hv) as [S1 S2]. split; [apply decode_in; exists x; auto|]. split.
    - intros E. apply X3. apply (nbr_inj a nv HC v); auto. congruence.
    - intros y I NE. apply decode_in in I. destruct I as (p & Hp & Kp & <-).
      assert (p <> sp a v) by (intros ->; congruence). specialize (X4 p Hp Kp H).
      destruct (Nat.eq_dec p x) as [->|]; auto. apply Nat.lt_le_incl, (nbr_mono a nv HC). lia.
  Qed.

  Lemma decode_minus v K x : v < nv -> x < rlen a v -> remove Nat.eq_dec (nbr a v x) (decode a v K) = decode a v (minus K x).
  Proof.
    intros Hv Hx. unfold decode, members, sel.
    assert (H : forall l, (forall p, In p l -> p < rlen a v) -> remove Nat.eq_dec (nbr a v x) (map (fun p => nbr a v p) (filter K l)) = map (fun p => nbr a v p) (filter (minus K x) l)).
    { induction l as [|p l IH]; intros Hl; auto. cbn [filter]. specialize (IH (fun q I => Hl q (or_intror I))). unfold minus at 1.
      destruct (K p); [|rewrite ?andb_false_r; exact IH]. cbn [map remove]. destruct (Nat.eq_dec (nbr a v x) (nbr a v p)) as [E|NE].
      - apply (nbr_inj a nv HC v) in E; auto; [|apply Hl; left; auto]. subst p. rewrite Nat.eqb_refl. cbn [negb andb]. exact IH.
      - assert (p <> x) by congruence. destruct (Nat.eqb_spec p x); [congruence|]. cbn [negb andb map]. f_equal. exact IH. }
    apply H. intros p I. apply in_seq in I. lia.
  Qed.

  Lemma first_lex v K K' : first_or a v K K' -> decode a v K' <> decode a v K -> lex (decode a v K) (decode a v K').
  Proof.
    intros [E|L] NE; [|apply (lexlt_decode a nv); auto]. destruct NE. symmetry. apply decode_ext; auto.
  Qed.

  Lemma last_lex v K K' : v < nv -> rooted a v K -> rooted a v K' -> last_or a v K K' -> decode a v K' <> decode a v K ->
    lex_then_last v (decode a v K) (decode a v K').
  Proof.
    intros Hv R R' [E|(x & x' & T & T' & D)] NE; [destruct NE; symmetry; apply decode_ext; auto|].
    exists (nbr a v x), (nbr a v x'). split; [apply tops_greatest; auto|]. split; [apply tops_greatest; auto|].
    rewrite (decode_minus v K x Hv (proj1 T)), (decode_minus v K' x' Hv (proj1 T')). destruct D as [D|[D L]]; [left; apply (lexlt_decode a nv); auto|right].
    split; [apply decode_ext; auto|]. apply (nbr_mono a nv HC). destruct T. lia.
  Qed.
End Answer.

(** ** The theorems *)
Lemma fresh_best p n adj e lb ub heur cont q c : made p n adj -> has_edge adj -> storage_live p -> permutes e -> never_late e ->
  (forall d, clique n adj d -> length d <= ub) -> get_max_clique e p lb ub heur true cont = Ok (q, Ret c) -> maximum_clique n adj c.
Proof.
  intros M HE LV PE NL UB E. pose proof (fresh_max p n adj M HE LV e lb ub heur cont PE NL UB) as W. rewrite E in W.
  destruct W as [_ [(c' & E' & H & _)|[E' _]]]; cbn [snd] in E'; congruence.
Qed.

Lemma only_largest p n adj e e' lb lb' ub ub' heur heur' cont cont' q q' c c' : made p n adj -> has_edge adj -> storage_live p ->
  permutes e -> permutes e' -> never_late e -> never_late e' -> (forall d, clique n adj d -> length d <= ub) -> (forall d, clique n adj d -> length d <= ub') ->
  (forall d d', maximum_clique n adj d -> maximum_clique n adj d' -> d = d') ->
  get_max_clique e p lb ub heur true cont = Ok (q, Ret c) -> get_max_clique e' p lb' ub' heur' true cont' = Ok (q', Ret c') -> c = c'.
Proof. intros M HE LV PE PE' NL NL' UB UB' ONE E E'. apply ONE; [apply (fresh_best p n adj e lb ub heur cont q c)|apply (fresh_best p n adj e' lb' ub' heur' cont' q' c')]; auto. Qed.

Lemma recursion_first p n adj e lb ub cont q c : made p n adj -> has_edge adj -> storage_live p -> permutes e -> ~ untimed e -> never_late e ->
  (forall d, clique n adj d -> length d <= ub) -> get_max_clique e p lb ub false true cont = Ok (q, Ret c) ->
  maximum_clique n adj c /\ exists s, richest n adj s /\ forall d, clique n adj d -> length d = length c -> d <> c -> met_before adj s (fun _ => lex) c d.
Proof.
  intros M HE LV PE TM NL UB E. split; [exact (fresh_best _ _ _ _ _ _ _ _ _ _ M HE LV PE NL UB E)|]. pose proof (never_late_lawful e lb PE NL) as LA.
  destruct (made_hinv p n adj M HE LV) as (a & cap & m & g & GR & B & -> & HL & G & Z & WD & ST & _ & _).
  pose proof (gra_ctx a n adj GR) as HC.
  destruct (clock e) as [clk|] eqn:EC; [|destruct TM; exact EC]. assert (NLT : ~ late clk) by (intros L; eapply never_late_late; eauto).
  destruct (get_first a n adj GR (first_or a) e cap g m lb ub cont q c B HE HL LA NL UB (edge_clique _ _ _ M HE)) as (v & K & Hv & -> & R & P & _ & H); auto.
  { unfold find_max_cliques. cbn [bind]. rewrite EC.
    apply (rec_first a (n + 1) HC (first_or a) (gra_len0 a n adj GR) clk _ (bound a)); auto.
    - intros g1 mcs1 cur t G1 Hc. apply (rec_holds a (n + 1) clk g1 mcs1 cur t HC NLT G1 Hc).
    - apply prepared_good; auto.
    - apply svalid_valid, (bound_svalid a n). }
  exists (CUR_MAX_LOC g). split; [apply (built_richest a n adj GR cap g B); destruct Z; lia|]. intros d D LD NE.
  destruct (H d D LD) as (v' & K' & Hv' & -> & R' & P' & _ & X). exists v, v'.
  split; [apply (rooted_opens a n adj GR); auto|]. split; [apply (rooted_opens a n adj GR); auto|].
  destruct X as [X|[<- X]]; [left; auto|right]. split; auto. apply (first_lex a n adj GR); auto.
Qed.

Lemma stack_first p n adj e lb ub cont q c : made p n adj -> has_edge adj -> storage_live p -> permutes e -> untimed e ->
  (forall d, clique n adj d -> length d <= ub) -> get_max_clique e p lb ub false true cont = Ok (q, Ret c) ->
  maximum_clique n adj c /\ exists s, richest n adj s /\ forall d, clique n adj d -> length d = length c -> d <> c -> met_before adj s lex_then_last c d.
Proof.
  intros M HE LV PE TM UB E. assert (NL : never_late e) by (unfold never_late; rewrite TM; auto).
  split; [exact (fresh_best _ _ _ _ _ _ _ _ _ _ M HE LV PE NL UB E)|]. pose proof (never_late_lawful e lb PE NL) as LA.
  destruct (made_hinv p n adj M HE LV) as (a & cap & m & g & GR & B & -> & HL & G & Z & WD & ST & _ & _).
  pose proof (gra_ctx a n adj GR) as HC. unfold untimed in TM.
  destruct (get_first a n adj GR (last_or a) e cap g m lb ub cont q c B HE HL LA NL UB (edge_clique _ _ _ M HE)) as (v & K & Hv & -> & R & P & _ & H); auto.
  { unfold find_max_cliques. cbn [bind]. rewrite TM.
    apply (sd_first a (n + 1) HC (last_or a) (gra_len0 a n adj GR) (lr_order e) _ (bound a)); auto.
    - intros g1 mcs1 cur G1 Hc. apply (sd_holds a (n + 1) (lr_order e) g1 mcs1 cur HC G1 Hc).
    - apply prepared_good; auto.
    - apply svalid_valid, (bound_svalid a n). }
  exists (CUR_MAX_LOC g). split; [apply (built_richest a n adj GR cap g B); destruct Z; lia|]. intros d D LD NE.
  destruct (H d D LD) as (v' & K' & Hv' & -> & R' & P' & _ & X). exists v, v'.
  split; [apply (rooted_opens a n adj GR); auto|]. split; [apply (rooted_opens a n adj GR); auto|].
  destruct X as [X|[<- X]]; [left; auto|right]. split; auto. apply (last_lex a n adj GR); auto. lia.
Qed.

(** ** The first clique is unique *)
Lemma met_asym p n adj s (cmp : nat -> list nat -> list nat -> Prop) c d : made p n adj -> clique n adj c -> clique n adj d ->
  (forall v, cmp v c d -> cmp v d c -> False) -> met_before adj s cmp c d -> met_before adj s cmp d c -> False.
Proof.
  intros M C D AS (v & v' & O & O' & X) (u & u' & Q & Q' & Y). destruct (made_fresh p n adj M) as (a & cap & m & g & _ & GR & _).
  rewrite <- (opens_one a n adj GR c v u') in Y by auto. rewrite <- (opens_one a n adj GR d v' u) in Y by auto.
  destruct X as [X|[-> X]], Y as [Y|[E Y]]; try lia. eauto.
Qed.

Lemma last_asym v c d : lex_then_last v c d -> lex_then_last v d c -> False.
Proof.
  assert (GF : forall l x x', greatest_but v l x -> greatest_but v l x' -> x = x').
  { intros l x x' (I & N & H) (I' & N' & H'). specialize (H x' I' N'). specialize (H' x I N). lia. }
  intros (x & y & G1 & G2 & D) (y' & x' & G3 & G4 & D'). rewrite <- (GF _ _ _ G1 G4), <- (GF _ _ _ G2 G3) in D'.
  destruct D as [D|[D L]], D' as [D'|[D' L']]; try lia.
  - exact (lex_asym _ _ D D').
  - rewrite D' in D. exact (lex_asym _ _ D D).
  - rewrite D in D'. exact (lex_asym _ _ D' D').
Qed.

Lemma same_call p n adj e e' lb lb' ub ub' cont cont' q q' c c' : made p n adj -> has_edge adj -> storage_live p -> permutes e -> permutes e' -> (untimed e /\ untimed e' \/ ~ untimed e /\ ~ untimed e' /\ never_late e /\ never_late e') ->
  (forall d, clique n adj d -> length d <= ub) -> (forall d, clique n adj d -> length d <= ub') ->
  get_max_clique e p lb ub false true cont = Ok (q, Ret c) -> get_max_clique e' p lb' ub' false true cont' = Ok (q', Ret c') -> c = c'.
Proof.
  intros M HE LV PE PE' T UB UB' E E'. destruct (list_eq_dec Nat.eq_dec c c') as [|NE]; auto. exfalso.
  assert (FIN : forall cmp : nat -> list nat -> list nat -> Prop, (forall v x y, cmp v x y -> cmp v y x -> False) ->
    (maximum_clique n adj c /\ exists s, richest n adj s /\ forall d, clique n adj d -> length d = length c -> d <> c -> met_before adj s cmp c d) ->
    (maximum_clique n adj c' /\ exists s, richest n adj s /\ forall d, clique n adj d -> length d = length c' -> d <> c' -> met_before adj s cmp c' d) -> False).
  { intros cmp AS ([C1 C2] & s & R & H) ([C1' C2'] & s' & R' & H').
    assert (EL : length c = length c') by (apply Nat.le_antisymm; auto). pose proof (richest_one n adj s s' R R') as <-.
    refine (met_asym p n adj s cmp c c' M C1 C1' (fun v => AS v c c') (H c' C1' _ _) (H' c C1 EL NE)); auto. }
  destruct T as [[T T']|(T & T' & NL & NL')].
  - apply (FIN lex_then_last last_asym); [apply (stack_first p n adj e lb ub cont q)|apply (stack_first p n adj e' lb' ub' cont' q')]; auto.
  - apply (FIN (fun _ => lex) (fun _ => lex_asym)); [apply (recursion_first p n adj e lb ub cont q)|apply (recursion_first p n adj e' lb' ub' cont' q')]; auto.
Qed.

Lemma same_answer p p' n adj adj' e e' lb lb' ub ub' cont cont' q q' c c' : made p n adj -> made p' n adj' -> (forall u v, adj u v <-> adj' u v) ->
  has_edge adj -> storage_live p -> storage_live p' -> permutes e -> permutes e' ->
  (untimed e /\ untimed e' \/ ~ untimed e /\ ~ untimed e' /\ never_late e /\ never_late e') ->
  (forall d, clique n adj d -> length d <= ub) -> (forall d, clique n adj d -> length d <= ub') ->
  get_max_clique e p lb ub false true cont = Ok (q, Ret c) -> get_max_clique e' p' lb' ub' false true cont' = Ok (q', Ret c') -> c = c'.
Proof.
  intros M M' EA HE LV LV' PE PE' T UB UB' E E'.
  assert (HE' : has_edge adj') by (destruct HE as (u & v & A); exists u, v; apply EA; auto).
  destruct (made_same p p' n adj adj' M M' EA) as (g & h & G1 & G2 & FL & _).
  destruct (made_hinv p n adj M HE LV) as (a & cap & m & g1 & GR & _ & Ep & L1 & _).
  destruct (made_hinv p' n adj' M' HE' LV') as (a' & cap' & m' & g2 & _ & _ & Ep' & L2 & _).
  assert (EG : g1 = g2).
  { subst p p'. cbn [p_G] in G1, G2. injection G1 as ->. injection G2 as ->. destruct g, h. unfold forget_live in FL. cbn in *. congruence. }
  pose proof (has_edge_n a n adj GR HE) as Hn. subst g2.
  assert (E2 : exists q2, get_max_clique e' p lb' ub' false true cont' = Ok (q2, Ret c')).
  { rewrite Ep. rewrite Ep' in E'. rewrite get_unfold in E' |- * by auto.
    destruct (find_max_cliques e' (prepared g1 lb' ub') (if cont' then 0 else 0) (if cont' && negb (0 =? 0) then false else false) true) as [[g' i]| |]; try discriminate.
    cbn [bind] in *. destruct (stored_clique g' (CUR_MAX_LOC g')) as [[g3 x]| |]; try discriminate. cbn [bind] in *.
    destruct (length x <? lb'); [discriminate|]. injection E' as _ <-. eexists. reflexivity. }
  destruct E2 as (q2 & E2). exact (same_call p n adj e e' lb lb' ub ub' cont cont' q q2 c c' M HE LV PE PE' T UB UB' E E2).
Qed.
