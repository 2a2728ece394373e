(** ContFacts: what a search spread over several timed calls has seen. Every call whose time runs out may leave one root
    unfinished for good; the last vertex may be left out too. *)
From Verif Require Import Base MBits MUtils MGraph MHeur MStack MRec MEnum MApi Spec SpecCont SpecBits BaseFacts BitsFacts SetFacts SortFacts RowFacts ConstructFacts CardFacts LoadFacts SearchBase StackFacts RecFacts HeurFacts SearchFacts CliqueFacts ApiFacts EnumFacts EnumApi SatFacts SearchProps.
From Coq Require Import Sorting.Sorted Sorting.Permutation.
Local Open Scope nat_scope.
Local Arguments Nat.sub : simpl never.
Local Arguments Nat.mul : simpl never.

Section Graph.
  Variables (a : pairs) (nv : nat).
  Hypothesis HC : gctx a nv.
  Hypothesis Hrow0 : rlen a 0 = 1.

  (** As [valid] and [all_done], but nothing is known of the roots in X. *)
  Definition xvalid (X : list nat) (g : graph) (mcs : nat -> nat) : Prop :=
    forall v, v < nv -> In v X \/ no_larger a v (Nat.max (mcs v) (CUR_MAX_SIZE g)).
  Definition xdone (X : list nat) (lo hi : nat) (g : graph) : Prop :=
    forall v, lo <= v < hi -> v < nv -> In v X \/ no_larger a v (CUR_MAX_SIZE g).

  Lemma xdone_le X Y lo hi g g' : incl X Y -> CUR_MAX_SIZE g <= CUR_MAX_SIZE g' -> xdone X lo hi g -> xdone Y lo hi g'.
  Proof. intros I L D v H1 H2. destruct (D v H1 H2) as [?|N]; [left; auto|right]. eapply no_larger_le; eauto. Qed.

  Lemma xvalid_le X g g' mcs : CUR_MAX_SIZE g <= CUR_MAX_SIZE g' -> xvalid X g mcs -> xvalid X g' mcs.
  Proof. intros L V v Hv. destruct (V v Hv) as [?|N]; [left; auto|right]. eapply no_larger_le; [|exact N]. lia. Qed.

  Lemma xvalid_step X Y g g' mcs mcs' cur : incl X Y -> CUR_MAX_SIZE g <= CUR_MAX_SIZE g' -> (forall v, v <> cur -> mcs' v = mcs v) ->
    (In cur Y \/ no_larger a cur (CUR_MAX_SIZE g')) -> xvalid X g mcs -> xvalid Y g' mcs'.
  Proof.
    intros I L E D V v Hv. destruct (Nat.eq_dec v cur) as [->|NE].
    - destruct D as [D|D]; auto. right. eapply no_larger_le; [|exact D]. lia.
    - rewrite E by auto. destruct (V v Hv) as [?|N]; [left; auto|right]. eapply no_larger_le; [|exact N]. lia.
  Qed.

  Lemma rec_step_x clk g0 mcs0 cur t : good a nv g0 mcs0 -> wide a nv g0 -> cur < nv ->
    wp (rec_process_vertex clk g0 cur t) (fun r => let g := fst r in t <= snd r /\ exists mcs, good a nv g mcs /\ called a nv g0 g
       /\ (forall v, v <> cur -> mcs v = mcs0 v) /\ (fired clk t (snd r) \/ no_larger a cur (CUR_MAX_SIZE g))).
  Proof.
    intros G W Hc. destruct (good_room_s a nv g0 mcs0 _ cur (proj1 G) Hc) as [R1 R2]. specialize (R2 eq_refl).
    eapply wp_mono; [apply (rec_process_vertex_spec a nv cur g0 mcs0 clk HC Hc (go_shape _ _ _ _ _ (proj1 G)) (go_eb _ _ _ _ _ (proj1 G)) (proj2 G) R2)|].
    intros [g t'] ([S1 S2 S3] & Ht & D). cbn [fst snd] in *. split; auto.
    destruct (prog_step a nv g0 g mcs0 cur Hc G S1 S2 S3) as (mcs & A1 & A2 & A3 & A4).
    exists mcs. do 3 (split; auto). rewrite (core_lim _ _ (ca_core _ _ _ _ A2)) in D.
    destruct D as [D|[D|D]]; auto. right. eapply no_larger_le; [exact D|]. apply W. auto.
  Qed.

  Lemma sd_step_x lr g0 mcs0 cur : good a nv g0 mcs0 -> wide a nv g0 -> cur < nv ->
    wp (sd_process_vertex lr g0 cur) (fun g => exists mcs, good a nv g mcs /\ called a nv g0 g
       /\ (forall v, v <> cur -> mcs v = mcs0 v) /\ no_larger a cur (CUR_MAX_SIZE g)).
  Proof.
    intros G W Hc. destruct (good_room_s a nv g0 mcs0 _ cur (proj1 G) Hc) as [R1 R2].
    eapply wp_mono; [apply (sd_process_vertex_spec a nv cur lr g0 mcs0 HC Hc (go_shape _ _ _ _ _ (proj1 G)) (go_eb _ _ _ _ _ (proj1 G)) (proj2 G) R1)|].
    intros g [[S1 S2 S3] D].
    destruct (prog_step a nv g0 g mcs0 cur Hc G S1 S2 S3) as (mcs & A1 & A2 & A3 & A4).
    exists mcs. do 3 (split; auto). rewrite (core_lim _ _ (ca_core _ _ _ _ A2)) in D.
    destruct D as [D|D]; auto. eapply no_larger_le; [exact D|]. apply W. auto.
  Qed.

  Lemma wide_called g0 g : called a nv g0 g -> wide a nv g0 -> wide a nv g.
  Proof. intros C W v Hv. rewrite (core_lim _ _ (ca_core _ _ _ _ C)). auto. Qed.

  (** A root that is passed over. *)
  Lemma xdone_skip X lo i g mcs : xvalid X g mcs -> mcs i <= CUR_MAX_SIZE g -> i < nv -> xdone X lo i g -> xdone X lo (i + 1) g.
  Proof.
    intros V L Hi D v H1 H2. destruct (Nat.eq_dec v i) as [->|]; [|apply D; lia].
    destruct (V i Hi) as [?|N]; auto. right. eapply no_larger_le; [|exact N]. lia.
  Qed.

  Lemma xdone_limit X lo i g : wide a nv g -> CLIQUE_LIMIT g <= CUR_MAX_SIZE g -> xdone X lo i g.
  Proof. intros W L v H1 H2. right. eapply no_larger_le; [exact L|]. apply W. auto. Qed.

  Lemma rec_graph_x clk start X g0 mcs0 : monotone clk -> good a nv g0 mcs0 -> wide a nv g0 -> xvalid X g0 mcs0 ->
    wp (rec_process_graph clk start g0) (fun r => let g := fst r in
       start <= snd r <= Nat.max start nv /\ (snd r < nv -> late clk)
       /\ exists Y mcs, length Y <= 1 /\ (late clk \/ Y = []) /\ good a nv g mcs /\ called a nv g0 g
       /\ xvalid (Y ++ X) g mcs /\ xdone (Y ++ X) start (snd r) g).
  Proof.
    intros MO G0 W0 V0. unfold rec_process_graph. apply wp_bind.
    eapply wp_mono; [apply (rec_step_x clk g0 mcs0 _ 0 G0 W0 (go_loc _ _ _ _ _ (proj1 G0)))|].
    intros [g1 t1] (T1 & mcs1 & G1 & C1 & E1 & D1). cbn [fst snd] in *.
    assert (FL : forall t t', fired clk t t' -> clk t' = true).
    { intros t t' (k & Hk & F). apply (MO k); auto. lia. }
    rewrite (sh_nv _ _ _ _ (go_shape _ _ _ _ _ (proj1 G1))).
    apply (wp_loopN_rel _ _ (fun s n => let '(g, i, t) := s in n = nv - i /\ start <= i <= Nat.max start nv /\
       exists Y mcs, length Y <= 1 /\ (Y = [] \/ clk t = true) /\ good a nv g mcs /\ called a nv g0 g
       /\ xvalid (Y ++ X) g mcs /\ xdone (Y ++ X) start i g) _ (nv - start)); [| lia |].
    - split; auto. split; [lia|]. destruct D1 as [D1|D1].
      + exists [CUR_MAX_LOC g0], mcs1. split; auto. split; [right; eapply FL; eauto|]. split; auto. split; auto. split; [|intros v Hv; lia].
        eapply xvalid_step; [| |exact E1| |exact V0]; [apply incl_tl, incl_refl|apply (called_le _ _ _ _ C1)|left; left; auto].
      + exists [], mcs1. split; [simpl; lia|]. split; auto. split; auto. split; auto. split; [|intros v Hv; lia].
        eapply xvalid_step; [| |exact E1| |exact V0]; [apply incl_refl|apply (called_le _ _ _ _ C1)|auto].
    - intros [[g i] t] n (En & Hi & Y & mcs & LY & HY & G & C & V & D).
      rewrite (sh_nv _ _ _ _ (go_shape _ _ _ _ _ (proj1 G))).
      pose proof (wide_called _ _ C W0) as W.
      assert (HL : late clk \/ Y = []) by (destruct HY as [?|HY]; auto; left; exists t; auto).
      destruct (Nat.ltb_spec i nv) as [Li|Li].
      2: { apply wp_ok. cbn [fst snd]. split; auto. split; [lia|]. exists Y, mcs. auto 10. }
      rewrite (good_rd a nv g mcs i G Li). cbn [bind mkvert vmcs].
      destruct ((mcs i <=? CUR_MAX_SIZE g) || (CLIQUE_LIMIT g <=? CUR_MAX_SIZE g)) eqn:E.
      + apply wp_ok. exists (nv - (i + 1)). split; [lia|]. split; auto. split; [lia|].
        exists Y, mcs. do 5 (split; auto). apply orb_prop in E.
        destruct E as [E|E]; apply Nat.leb_le in E; [eapply xdone_skip; eauto|apply xdone_limit; auto].
      + destruct (clk t) eqn:EC.
        { apply wp_ok. cbn [fst snd]. split; auto. split; [intros _; exists t; auto|]. exists Y, mcs. auto 10. }
        destruct HY as [->|HY]; [|discriminate]. cbn [app] in V, D.
        apply wp_bind. eapply wp_mono; [apply (rec_step_x clk g mcs i (S t) G W Li)|].
        intros [g' t'] (T' & mcs' & G' & C' & E' & D'). cbn [fst snd] in *. apply wp_ok.
        exists (nv - (i + 1)). split; [lia|]. split; auto. split; [lia|].
        pose proof (called_le _ _ _ _ C') as CL.
        assert (C2 : called a nv g0 g') by (eapply called_trans; [intros; apply (proj1 G)|exact C|exact C']).
        destruct D' as [D'|D'].
        * exists [i], mcs'. split; auto. split; [right; eapply FL; eauto|]. split; auto. split; auto.
          split; [eapply xvalid_step; [| |exact E'| |exact V]; [apply incl_tl, incl_refl|auto|left; left; auto]|].
          intros v H1 H2. destruct (Nat.eq_dec v i) as [->|]; [left; left; auto|].
          destruct (D v ltac:(lia) H2) as [?|N]; [left; right; auto|right]. eapply no_larger_le; eauto.
        * exists [], mcs'. split; [simpl; lia|]. split; auto. split; auto. split; auto. cbn [app].
          split; [eapply xvalid_step; [| |exact E'| |exact V]; [apply incl_refl|auto|auto]|].
          intros v H1 H2. destruct (Nat.eq_dec v i) as [->|]; auto.
          destruct (D v ltac:(lia) H2) as [?|N]; auto. right. eapply no_larger_le; eauto.
  Qed.

  Lemma sd_graph_x lr X g0 mcs0 : good a nv g0 mcs0 -> wide a nv g0 -> xvalid X g0 mcs0 ->
    wp (sd_process_graph lr g0) (fun r => let g := fst r in snd r = nv /\ exists mcs, good a nv g mcs /\ called a nv g0 g
       /\ xvalid X g mcs /\ xdone X 0 nv g).
  Proof.
    intros G0 W0 V0. unfold sd_process_graph. apply wp_bind.
    eapply wp_mono; [apply (sd_step_x lr g0 mcs0 _ G0 W0 (go_loc _ _ _ _ _ (proj1 G0)))|].
    intros g1 (mcs1 & G1 & C1 & E1 & D1). apply wp_bind.
    rewrite (sh_nv _ _ _ _ (go_shape _ _ _ _ _ (proj1 G1))).
    apply (wp_for 0 nv _ (fun i g => exists mcs, good a nv g mcs /\ called a nv g0 g /\ xvalid X g mcs /\ xdone X 0 i g)); [lia| | |].
    - exists mcs1. split; auto. split; auto. split; [|intros v Hv; lia].
      eapply xvalid_step; [| |exact E1| |exact V0]; [apply incl_refl|apply (called_le _ _ _ _ C1)|auto].
    - intros i g [_ Hi] (mcs & G & C & V & D). rewrite (good_rd a nv g mcs i G Hi). cbn [bind mkvert vmcs].
      pose proof (wide_called _ _ C W0) as W.
      destruct ((mcs i <=? CUR_MAX_SIZE g) || (CLIQUE_LIMIT g <=? CUR_MAX_SIZE g)) eqn:E.
      + apply wp_ok. exists mcs. do 3 (split; auto). apply orb_prop in E. rewrite <- Nat.add_1_r.
        destruct E as [E|E]; apply Nat.leb_le in E; [eapply xdone_skip; eauto|apply xdone_limit; auto].
      + eapply wp_mono; [apply (sd_step_x lr g mcs i G W Hi)|].
        intros g' (mcs' & G' & C' & E' & D'). exists mcs'. split; auto. pose proof (called_le _ _ _ _ C') as CL.
        split; [eapply called_trans; [intros; apply (proj1 G)|exact C|exact C']|].
        split; [eapply xvalid_step; [| |exact E'| |exact V]; [apply incl_refl|auto|auto]|].
        intros v H1 H2. destruct (Nat.eq_dec v i) as [->|]; auto.
        destruct (D v ltac:(lia) H2) as [?|N]; auto. right. eapply no_larger_le; eauto.
    - intros g (mcs & G & C & V & D). apply wp_ok. cbn [fst snd]. split; [apply (sh_nv _ _ _ _ (go_shape _ _ _ _ _ (proj1 G)))|]. eauto 10.
  Qed.

  Lemma find_x e g mcs start heur X : permutes e -> steady e -> good a nv g mcs -> wide a nv g -> xvalid X g mcs -> start <= nv ->
    wp (find_max_cliques e g start heur true) (fun r => let g' := fst r in
       start <= snd r <= nv /\ (never_late e -> snd r = nv)
       /\ exists Y mcs', length Y <= 1 /\ (never_late e -> Y = []) /\ good a nv g' mcs' /\ called a nv g g'
       /\ xvalid (Y ++ X) g' mcs' /\ xdone (Y ++ X) start (snd r) g').
  Proof.
    intros HP ST G W V HS. unfold find_max_cliques. apply wp_bind.
    assert (H1 : wp (if heur then heur_process_graph (srt_fun e) g else Ok g) (fun g1 => good a nv g1 mcs /\ called a nv g g1)).
    { destruct heur; [eapply wp_mono; [exact (heur_process_graph_spec a nv HC Hrow0 (srt_fun e) g mcs HP G)|intros ? (? & ? & _); auto]|].
      apply wp_ok. split; auto. apply called_refl. }
    eapply wp_mono; [exact H1|]. clear H1. intros g1 (G1 & C1).
    pose proof (wide_called _ _ C1 W) as W1. pose proof (xvalid_le X g g1 mcs (called_le _ _ _ _ C1) V) as V1.
    assert (TR : forall g2, called a nv g1 g2 -> called a nv g g2).
    { intros g2 C2. apply (called_trans a nv g g1 g2); auto. intros; apply (proj1 G1). }
    destruct (clock e) as [clk|] eqn:EC.
    - eapply wp_mono; [apply (rec_graph_x clk start X g1 mcs (steady_mono e clk ST EC) G1 W1 V1)|].
      intros [g2 i] (I1 & I2 & Y & mcs2 & LY & HY & G2 & C2 & V2 & D2). cbn [fst snd] in *. split; [lia|].
      assert (NLT : never_late e -> ~ late clk) by (intros NL L; eapply never_late_late; eauto).
      split; [intros NL; destruct (Nat.lt_ge_cases i nv) as [L|]; [|lia]; exfalso; apply (NLT NL); auto|].
      exists Y, mcs2. split; auto. split; [intros NL; destruct HY as [L|]; auto; exfalso; apply (NLT NL L)|]. auto 10.
    - eapply wp_mono; [apply (sd_graph_x (lr_order e) X g1 mcs G1 W1 V1)|].
      intros [g2 i] (-> & mcs2 & G2 & C2 & V2 & D2). cbn [fst snd] in *. split; [lia|]. split; auto.
      exists [], mcs2. cbn [app length]. split; [lia|]. do 4 (split; auto). intros v H2 H3. apply D2; lia.
  Qed.
End Graph.

Section Calls.
  Variables (a : pairs) (n : nat) (adj : nat -> nat -> Prop).
  Hypothesis GR : gra a n adj.
  Hypothesis HE : has_edge adj.
  Notation nv := (n + 1).
  Let HC := gra_ctx a n adj GR.
  Let HS := gc_sorted _ _ HC.
  Let Hself := gc_self _ _ HC.

  (** [X]: the roots left unfinished. *)
  Definition cinv (X : list nat) (s : nat) (p : pygraph) : Prop :=
    exists g mcs m cur, p = mkP (Some g) n m cur (p_done p) /\ good a nv g mcs /\ nz a g /\ wide a nv g
      /\ stores a g (CUR_MAX_LOC g) s /\ Nat.max (CUR_MAX_SIZE g) 1 = s
      /\ xvalid a nv X g mcs /\ xdone a nv X 0 cur g /\ cur <= nv.

  Lemma cinv_get X s p e ub heur : permutes e -> steady e -> (forall d, clique n adj d -> length d <= ub) -> cinv X s p ->
    wp (get_max_clique e p 1 ub heur true true) (fun r => exists c Y, snd r = Ret c /\ clique n adj c
       /\ length Y <= 1 /\ (never_late e -> Y = [] /\ p_cur (fst r) = nv)
       /\ cinv (Y ++ X) (length c) (fst r) /\ p_done (fst r) = (n <=? p_cur (fst r)) /\ p_cur p <= p_cur (fst r) /\ s <= length c).
  Proof.
    intros HP ST HU (g & mcs & m & cur & -> & G & Z & W & S & ES & V & D & HCUR).
    pose proof (has_edge_n a n adj GR HE) as Hn. rewrite get_unfold by auto. apply wp_bind.
    assert (EP : CUR_MAX_SIZE (prepared g 1 ub) = s) by exact ES.
    pose proof (prepared_good a n g mcs 1 ub G) as GP. pose proof (wide_prepared a n adj GR g 1 ub W HU) as WP.
    assert (VP : xvalid a nv X (prepared g 1 ub) mcs) by (eapply xvalid_le; [| |exact V]; [apply (gra_len0 a n adj GR)|rewrite EP; lia]).
    eapply wp_mono; [apply (find_x a nv HC (gra_len0 a n adj GR) e (prepared g 1 ub) mcs cur _ X HP ST GP WP VP HCUR)|].
    intros [g' i] (I1 & I2 & Y & mcs' & LY & HY & G' & C' & V' & D'). cbn [fst snd] in *.
    pose proof (called_le _ _ _ _ C') as CL. rewrite EP in CL.
    pose proof (prepared_nz a g 1 ub Z) as ZP.
    assert (Z' : nz a g').
    { apply (nz_called a nv (gra_len0 a n adj GR) (prepared g 1 ub) g' ZP); auto. rewrite EP. lia. }
    assert (S' : stores a g' (CUR_MAX_LOC g') (CUR_MAX_SIZE g')).
    { destruct (ca_best _ _ _ _ C') as [(X1 & X2 & X3)|(X1 & X2)]; auto. rewrite X1, X2, EP.
      apply (stores_mem a nv (prepared g 1 ub)); auto; [apply (go_loc _ _ _ _ _ (proj1 GP))|apply (ca_len _ _ _ _ C')]. }
    pose proof (go_loc _ _ _ _ _ (proj1 G')) as L'.
    destruct (stored_clique_spec a n adj GR g' mcs' (CUR_MAX_LOC g') (CUR_MAX_SIZE g') (go_shape _ _ _ _ _ (proj1 G')) ltac:(destruct Z'; lia) S') as (c & E1 & E2 & E3).
    rewrite E1. cbn [bind]. destruct (Nat.ltb_spec (length c) 1); [lia|]. apply wp_ok. cbn [fst snd p_cur p_done].
    exists c, Y. split; auto. split; auto. split; auto. split; [intros NL; auto|]. split; [|split; auto; split; lia].
    exists g', mcs', m, i. split; auto. split; auto. split; auto. split; [eapply wide_called; eauto|]. split; [rewrite E3; auto|]. split; [lia|]. split; auto.
    split; [|lia]. intros v H1 H2. destruct (Nat.lt_ge_cases v cur) as [Lv|Lv].
    - destruct (D v ltac:(lia) H2) as [IX|N]; [left; apply in_or_app; auto|right]. eapply no_larger_le; [|exact N]. lia.
    - apply D'; lia.
  Qed.

  Lemma continued_cinv p k q c : cinv [] 1 p -> continued n adj p k q c -> exists X, cinv X (length c) q /\ length X <= k /\ clique n adj c
    /\ p_done q = (n <=? p_cur q) /\ (k = 0 -> p_cur q = nv).
  Proof.
    intros I0. induction 1 as [e ub heur q c k HP ST HK HU E|e ub heur q c k q' c' k' HQ IH HP ST HK HU E].
    - pose proof (cinv_get [] 1 p e ub heur HP ST HU I0) as H. rewrite E in H.
      destruct H as (c0 & Y & EC & CC & LY & HY & CI & FD & _). cbn [fst snd] in *. injection EC as <-.
      exists (Y ++ []). rewrite app_length. cbn [length]. split; auto.
      destruct HK as [[NL ->]| ->].
      + destruct (HY NL) as [HY1 HY2]. subst Y. cbn [length]. auto.
      + split; [lia|]. do 2 (split; auto). discriminate.
    - destruct IH as (X & CI & LX & _ & _ & K0).
      pose proof (cinv_get X (length c) q e ub heur HP ST HU CI) as H. rewrite E in H.
      destruct H as (c0 & Y & EC & CC & LY & HY & CI' & FD & _). cbn [fst snd] in *. injection EC as <-.
      exists (Y ++ X). rewrite app_length. split; auto.
      destruct HK as [[NL ->]| ->].
      + destruct (HY NL) as [HY1 HY2]. subst Y. cbn [length]. do 3 (split; auto).
      + split; [lia|]. do 2 (split; auto). discriminate.
  Qed.

  (** The root of a clique is the vertex that opens it. *)
  Lemma root_opens d : clique n adj d -> d <> [] -> exists v K, 1 <= v < nv /\ opens adj d v /\ rooted a v K /\ pclique a v K
    /\ card (rlen a v) K = length d.
  Proof.
    intros C NE. destruct (clique_rooted a n adj GR d C NE) as (v & K & Hv & I & R & P & E & ED).
    exists v, K. split; auto. split; [|auto]. split; auto. intros u du dv Iu NEu Du Dv.
    rewrite (degree_fun adj _ _ _ Du (row_degree a n adj GR u ltac:(pose proof (proj1 (proj2 C) u Iu); lia))).
    rewrite (degree_fun adj _ _ _ Dv (row_degree a n adj GR v ltac:(lia))).
    rewrite ED in Iu. apply in_map_iff in Iu. destruct Iu as (p & Ep & Ip). apply filter_In in Ip. destruct Ip as [Ip Kp]. apply in_seq in Ip.
    destruct (sp_spec a nv HS Hself v ltac:(lia)) as [S1 S2].
    destruct R as [R1 R2]. destruct (R2 p ltac:(lia) Kp) as [->|B]; [congruence|].
    unfold candp in B. change (nth p (row a v) 0) with (nbr a v p) in B. rewrite Ep in B. unfold before in B.
    assert (Hu : u < nv). { rewrite <- Ep. apply (nbr_lt a nv HC); lia. }
    pose proof (len_pos a nv HS Hself u Hu). pose proof (len_pos a nv HS Hself v ltac:(lia)).
    apply orb_prop in B. destruct B as [B|B]; [apply Nat.ltb_lt in B; left; lia|]. apply andb_prop in B. destruct B as [B1 B2].
    apply Nat.eqb_eq in B1. apply Nat.ltb_lt in B2. right. split; [congruence|lia].
  Qed.

  Lemma cinv_missed X (c : list nat) q d : cinv X (length c) q -> clique n adj d -> length c < length d ->
    exists v, opens adj d v /\ 1 <= v <= n /\ (In v X \/ p_cur q <= v).
  Proof.
    intros (g & mcs & m & cur & -> & G & Z & W & S & ES & V & D & HCUR) CD L. cbn [p_cur].
    destruct (root_opens d CD) as (v & K & Hv & O & R & P & E); [intros ->; simpl in L; lia|].
    exists v. split; auto. split; [lia|]. destruct (Nat.le_gt_cases cur v) as [?|Lv]; auto.
    destruct (D v ltac:(lia) ltac:(lia)) as [?|N]; auto. exfalso. specialize (N K R P). lia.
  Qed.
End Calls.

Lemma made_cinv p n adj : made p n adj -> has_edge adj -> storage_live p -> exists a, gra a n adj /\ cinv a n [] 1 p.
Proof.
  intros M HE LV. destruct (made_hinv p n adj M HE LV) as (a & cap & m & g & GR & B & -> & _ & G & Z & W & S1 & _ & L2).
  exists a. split; auto. exists g, (bound a), m, 0. split; auto. do 3 (split; auto).
  split; auto. split; [rewrite (b_max _ _ _ _ B); auto|].
  split; [|split; [intros v Hv; lia|lia]].
  intros v Hv. right. eapply no_larger_le; [|apply (bound_svalid a n v Hv)]. lia.
Qed.

(** ** C22, C23 *)
Lemma continued_missed p n adj k q c : made p n adj -> has_edge adj -> storage_live p -> continued n adj p k q c -> p_done q = true ->
  clique n adj c /\ exists missed, length missed <= k /\ forall d, clique n adj d -> length c < length d ->
    exists v, opens adj d v /\ (In v missed \/ v = n /\ 0 < k).
Proof.
  intros M HE LV CO DN. destruct (made_cinv p n adj M HE LV) as (a & GR & I0).
  destruct (continued_cinv a n adj GR HE p k q c I0 CO) as (X & CI & LX & CC & FD & K0). split; auto.
  exists X. split; auto. intros d D L. destruct (cinv_missed a n adj GR X c q d CI D L) as (v & O & Hv & [I|I]); exists v; auto.
  split; auto. rewrite FD in DN. apply Nat.leb_le in DN. right. split; [lia|]. destruct k; [|lia]. specialize (K0 eq_refl). lia.
Qed.

Lemma continued_call p n adj k q c : made p n adj -> has_edge adj -> storage_live p -> continued n adj p k q c ->
  forall e ub heur, permutes e -> steady e -> (forall d, clique n adj d -> length d <= ub) ->
  ends_with (get_max_clique e q 1 ub heur true true) (fun r => exists c', snd r = Ret c' /\ clique n adj c' /\ length c <= length c'
     /\ p_cur q <= p_cur (fst r) /\ (never_late e -> p_done (fst r) = true)).
Proof.
  intros M HE LV CO e ub heur HP ST HU. destruct (made_cinv p n adj M HE LV) as (a & GR & I0).
  destruct (continued_cinv a n adj GR HE p k q c I0 CO) as (X & CI & LX & CC & FD & K0).
  eapply wp_mono; [apply (cinv_get a n adj GR HE X (length c) q e ub heur HP ST HU CI)|].
  intros [q' r] (c' & Y & -> & CC' & _ & HY & _ & FD' & MO & LE). cbn [fst snd] in *. exists c'. do 4 (split; auto).
  intros NL. rewrite FD'. apply Nat.leb_le. destruct (HY NL). lia.
Qed.

Lemma opens_unique n adj d v v' : simple n adj -> (forall u, 1 <= u <= n -> exists k, degree adj u k) ->
  clique n adj d -> opens adj d v -> opens adj d v' -> v = v'.
Proof.
  intros _ DG (_ & R & _) [I1 O1] [I2 O2]. destruct (Nat.eq_dec v v') as [|NE]; auto.
  destruct (DG v (R v I1)) as (k & D), (DG v' (R v' I2)) as (k' & D').
  pose proof (O1 v' k' k I2 ltac:(auto) D' D). pose proof (O2 v k k' I1 NE D D'). lia.
Qed.

Lemma continued_searched p n adj k q c : made p n adj -> has_edge adj -> storage_live p -> continued n adj p k q c -> p_done q = true ->
  exists missed, length missed <= k /\ forall v, (v < n \/ k = 0) -> ~ In v missed ->
    forall d, clique n adj d -> opens adj d v -> length d <= length c.
Proof.
  intros M HE LV CO DN. destruct (continued_missed p n adj k q c M HE LV CO DN) as (CC & X & LX & H).
  exists X. split; auto. intros v Hv NI d D O. destruct (Nat.le_gt_cases (length d) (length c)) as [|L]; auto. exfalso.
  destruct (H d D L) as (v' & O' & [I|[-> K]]).
  - destruct (made_cinv p n adj M HE LV) as (a & GR & _).
    rewrite (opens_unique n adj d v v' (gr_simple _ _ _ GR)) in NI; auto. intros u Hu. exists (rlen a u - 1). apply (row_degree a n adj GR). lia.
  - destruct (made_cinv p n adj M HE LV) as (a & GR & _).
    assert (E : v = n). { apply (opens_unique n adj d v n (gr_simple _ _ _ GR)); auto. intros u Hu. exists (rlen a u - 1). apply (row_degree a n adj GR). lia. }
    lia.
Qed.

(** Without an expired clock *)
Lemma continued_on_time p n adj q c : made p n adj -> has_edge adj -> storage_live p -> continued n adj p 0 q c ->
  p_done q = true /\ maximum_clique n adj c.
Proof.
  intros M HE LV CO. destruct (made_cinv p n adj M HE LV) as (a & GR & I0).
  destruct (continued_cinv a n adj GR HE p 0 q c I0 CO) as (X & CI & LX & CC & FD & K0).
  assert (DN : p_done q = true) by (rewrite FD, (K0 eq_refl); apply Nat.leb_le; lia).
  split; auto. destruct (continued_missed p n adj 0 q c M HE LV CO DN) as (_ & Y & LY & H). split; auto.
  intros d D. destruct (Nat.le_gt_cases (length d) (length c)) as [|L]; auto. destruct (H d D L) as (v & _ & [I|[_ K]]); [|lia].
  destruct Y; [destruct I|simpl in LY; lia].
Qed.
