(** NWDetApi: searches of NWGraphs do not depend on what the source leaves open, apart from std::sort on ties. *)
From Verif Require Import Base MBits MUtils MGraph MHeur MApi MNW MNWEnum MNWApi Spec SpecNW SpecBits BaseFacts BitsFacts SetFacts SortFacts RowFacts ConstructFacts CardFacts LoadFacts ExportFacts LoadProps SearchBase StackFacts SearchFacts CliqueFacts FrameFacts FrameInv NWSum NWBase NWStack NWHeur NWSearch NWFacts NWEnumFacts NWEnumApi ApiFacts EnumFacts EnumApi NWEnumFacts NWEnumApi NWProps NWDetFacts NWEnumDet SpecJunk.
Local Open Scope nat_scope.

Section Det.
  Variables (rnd : Z -> Z) (p : pynw) (n : nat) (adj : nat -> nat -> Prop) (w : list Z).
  Hypothesis MK : nmade rnd p n adj w.
  Hypothesis HE : has_edge adj.
  Hypothesis LV : nstorage_live p.

  Lemma nw_find_same a W mcs e e' start heur dfs : gra a n adj -> ngood a (n + 1) (mkwts (vweight w) rnd) W mcs -> npermutes e ->
    (heur = true -> nw_srt e = nw_srt e') ->
    nw_find_max_cliques rnd e W start heur dfs = nw_find_max_cliques rnd e' W start heur dfs.
  Proof.
    intros GR G HP HS. pose proof (gra_ctx a n adj GR) as HC. unfold nw_find_max_cliques.
    destruct heur.
    - rewrite <- HS by auto. pose proof (nh_process_graph_spec a (n + 1) _ HC (nw_srt e) W mcs HP G) as H1. cbn [wrnd] in H1.
      destruct (nh_process_graph rnd (nw_srt e) W) as [W1| |]; cbn [ends_with bind] in *; auto. destruct dfs; auto.
      apply (nd_process_graph_same a (n + 1) (mkwts (vweight w) rnd) HC _ _ _ _ W1 mcs). apply H1.
    - cbn [bind]. destruct dfs; auto. apply (nd_process_graph_same a (n + 1) (mkwts (vweight w) rnd) HC _ _ _ _ W mcs G).
  Qed.

  Lemma nw_get_same q e e' lb ub heur dfs : nhistory rnd p q -> npermutes e -> (heur = true -> nw_srt e = nw_srt e') ->
    nw_get_max_clique rnd e q lb ub heur dfs = nw_get_max_clique rnd e' q lb ub heur dfs.
  Proof.
    intros H HP HS. destruct (nmade_inv rnd p n adj w MK HE LV) as (a & GR & LW & Hn & IP & _).
    destruct (history_ninv rnd p n adj w a q GR LW Hn IP H) as [(W & mcs & m & cur & fin & -> & G) _].
    rewrite !(nw_get_unfold n w rnd LW) by auto. rewrite (nw_find_same a (nprepared W lb ub) mcs e e' 0 heur dfs GR); auto.
    apply nprepared_good. auto.
  Qed.

  Lemma nw_correspondence_same q e e' len2 lb ub heur dfs : nhistory rnd p q -> npermutes e -> (heur = true -> nw_srt e = nw_srt e') ->
    nw_get_correspondence rnd e q len2 lb ub heur dfs = nw_get_correspondence rnd e' q len2 lb ub heur dfs.
  Proof. intros H HP HS. unfold nw_get_correspondence. rewrite (nw_get_same q e e' lb ub heur dfs); auto. Qed.

  Notation wt := (mkwts (vweight w) rnd).

  Section Gra.
    Variables (a : pairs) (W0 : nwgraph) (mcs : nat -> nat) (B : nat).
    Hypothesis GR : gra a n adj.
    Hypothesis LW : length w = n.
    Hypothesis Hn : 1 <= n.
    Hypothesis G : ngood a (n + 1) wt W0 mcs.
    Hypothesis HB1 : 1 <= B.
    Hypothesis HB : forall v, v < n + 1 -> (forall K, pclique a v K -> card (rlen a v) K <= B) /\ rlen a v <= max_degree (w_g W0)
      /\ search_cur (w_g W0) + (B + 1) * words (rlen a v) <= length (edge_bits (w_g W0)).
    Notation follows T := (follows a (n + 1) wt T W0 B).
    Notation estep T := (estep a (n + 1) wt T (w_mcs W0)).
    Let HC := gra_ctx a n adj GR.

    Lemma nw_drain_det T lr m cu fin fuel : forall W en s q en' l, follows T lr W en s ->
      nw_drain rnd fuel lr (mkQ (Some W) n m cu fin) en = Ok (q, en', l) ->
      exists W' s', q = mkQ (Some W') n m cu fin /\ follows T lr W' en' s' /\ reach (estep T) s s' /\ estep T s' = None
        /\ map (fun x => decode a (fst x) (snd x)) (snd s') = rev l ++ map (fun x => decode a (fst x) (snd x)) (snd s).
    Proof.
      induction fuel as [|fuel IH]; intros W en s q en' l F E; [discriminate|]. cbn [nw_drain] in E. unfold nw_next_clique in E. cbn [q_G q_nvert] in E.
      destruct (ne_process_graph rnd lr W en) as [[[W1 en1] v]| |] eqn:EP; cbn [bind] in E; try discriminate.
      destruct (ne_process_graph_det a (n + 1) wt T W0 mcs B HC (proj1 G) HB1 HB lr W en s (W1, en1, v) F EP) as (s1 & F1 & R1 & C1).
      destruct C1 as [(Hv & K & E1 & RP)|(Hv & E1 & E2)].
      - destruct (Nat.ltb_spec n v); [lia|]. cbn [bind] in E. unfold nw_stored in E.
        assert (KE : nkept a (n + 1) wt W0 W1) by (destruct s1 as [[[? ?] ?] ?]; apply F1).
        rewrite (stored_decode a n adj GR (w_g W1) mcs v K) in E; [|eapply nkept_shape; [apply G|exact KE]|lia|exact RP].
        cbn [bind] in E. replace (set_wg W1 (w_g W1)) with W1 in E by (destruct W1; reflexivity). unfold set_Q in E. cbn [q_nvert q_nedges q_cur q_done] in E.
        destruct (nw_drain rnd fuel lr (mkQ (Some W1) n m cu fin) en1) as [[[q2 en2] l2]| |] eqn:ED; cbn [bind] in E; try discriminate.
        injection E as <- <- <-. destruct (IH W1 en1 s1 q2 en2 l2 F1 ED) as (W' & s' & -> & F' & R' & N' & E').
        exists W', s'. split; auto. split; auto. split; [eapply reach_trans; eauto|]. split; auto.
        rewrite E', E1. cbn [rev map fst snd]. rewrite <- app_assoc. reflexivity.
      - destruct (Nat.ltb_spec n v); [|lia]. cbn [bind] in E. injection E as <- <- <-. exists W1, s1. split; auto. split; auto. split; auto. split; auto. rewrite E1. reflexivity.
    Qed.

    Lemma nw_drain_same T e e' lr lr' m cu fin en en' f f' q q' x x' l l' :
      nw_all_cliques e (mkQ (Some W0) n m cu fin) T = Ret en -> nw_all_cliques e' (mkQ (Some W0) n m cu fin) T = Ret en' ->
      nw_drain rnd f lr (mkQ (Some W0) n m cu fin) en = Ok (q, x, l) -> nw_drain rnd f' lr' (mkQ (Some W0) n m cu fin) en' = Ok (q', x', l') ->
      q = q' /\ l = l'.
    Proof.
      intros E E' DR DR'. rewrite nw_all_new in E, E' by auto. injection E as <-. injection E' as <-.
      assert (F : forall lr j, follows T lr W0 (new_nenum (map j (seq 0 (max_degree (w_g W0)))) T) (1, [], 0%Z, [])).
      { intros lr0 j. split; auto. split; [eapply nkept_refl; apply G|]. split; [split; auto; intros v Hv; cbn [find]; auto|]. cbn [new_nenum ne_W ne_buf ne_states ne_req].
        split; auto. split; auto. split; [rewrite map_length, seq_length; auto|]. right. split; auto. split; auto. split; auto. split; [apply G|]. split; auto. lia. }
      destruct (nw_drain_det T lr m cu fin f _ _ _ _ _ _ (F lr (nw_junk e)) DR) as (W1 & s1 & -> & F1 & R1 & N1 & E1).
      destruct (nw_drain_det T lr' m cu fin f' _ _ _ _ _ _ (F lr' (nw_junk e')) DR') as (W2 & s2 & -> & F2 & R2 & N2 & E2).
      pose proof (reach_end (estep T) _ _ _ R1 R2 N1 N2) as ->. cbn [snd map] in E1, E2. rewrite app_nil_r in E1, E2.
      split.
      - assert (W1 = W2) as -> by (eapply follows_end; eauto; apply G). reflexivity.
      - rewrite <- (rev_involutive l), <- (rev_involutive l'), <- E1, <- E2. reflexivity.
    Qed.
  End Gra.

  Lemma nw_list_same q e e' T en en' lr lr' : nhistory rnd p q -> nw_all_cliques e q T = Ret en -> nw_all_cliques e' q T = Ret en' ->
    exists q' l, forall fuel, length l < fuel ->
      (exists x, nw_drain rnd fuel lr q en = Ok (q', x, l)) /\ (exists x, nw_drain rnd fuel lr' q en' = Ok (q', x, l)).
  Proof.
    intros H E E'. destruct (nmade_inv rnd p n adj w MK HE LV) as (a & GR & LW & Hn & IP & _).
    destruct (history_ninv rnd p n adj w a q GR LW Hn IP H) as [(W & mcs & m & cur & fin & -> & G) _].
    pose proof E as E1. pose proof E' as E1'. rewrite nw_all_new in E1, E1' by auto. injection E1 as <-. injection E1' as <-.
    destruct (nw_drain_ready a n adj w rnd GR LW W mcs G m cur fin lr T (map (nw_junk e) (seq 0 (max_degree (w_g W))))) as (l & (W' & en2 & DR & _) & _);
      [rewrite map_length, seq_length; auto|].
    destruct (nw_drain_ready a n adj w rnd GR LW W mcs G m cur fin lr' T (map (nw_junk e') (seq 0 (max_degree (w_g W))))) as (l' & (W'' & en3 & DR' & _) & _);
      [rewrite map_length, seq_length; auto|].
    assert (X : mkQ (Some W') n m cur fin = mkQ (Some W'') n m cur fin /\ l = l').
    { destruct (nb_room _ _ _ _ _ _ (proj1 G)) as (B & HB1 & H1 & H2).
      apply (nw_drain_same a W mcs B GR LW Hn G HB1) with (T := T) (e := e) (e' := e') (lr := lr) (lr' := lr') (f := S (length l)) (f' := S (length l')) (m := m) (cu := cur) (fin := fin)
        (en := new_nenum (map (nw_junk e) (seq 0 (max_degree (w_g W)))) T) (en' := new_nenum (map (nw_junk e') (seq 0 (max_degree (w_g W)))) T) (x := en2) (x' := en3); auto.
      intros v Hv. destruct (H1 v Hv) as [H3 H4]. split; auto. split; auto. pose proof (words_mono _ _ H4) as WM.
      assert ((B + 1) * words (rlen a v) <= (B + 1) * words (max_degree (w_g W))) by (apply Nat.mul_le_mono; lia).
      lia. }
    destruct X as [EQ <-]. exists (mkQ (Some W') n m cur fin), l. intros fuel L. split; [eexists; apply DR; auto|]. rewrite EQ. eexists. apply DR'. auto.
  Qed.

  Lemma saw_history e cs q os : npermutes e -> saw rnd e p cs q os -> nhistory rnd p q.
  Proof.
    intros HP. induction 1 as [|cs q os lb ub heur dfs q' r H IH E|cs q os len2 lb ub heur dfs q' r H IH E|cs q os q' H IH E|cs q os T en fuel q' en' l H IH E1 E2].
    - constructor.
    - eapply nh_get; eauto.
    - unfold nw_get_correspondence in E. destruct (nw_get_max_clique rnd e q lb ub heur dfs) as [[q1 r1]| |] eqn:EG; cbn [bind] in E; try discriminate.
      destruct r1 as [c|x]; [destruct (correspondence2 len2 c); cbn [bind] in E; try discriminate|]; injection E as <- <-; eapply nh_get; eauto.
    - eapply nh_reset; eauto.
    - eapply nh_all; eauto.
  Qed.

  Lemma saw_same e e' cs q os : npermutes e -> (existsb uses_heuristic cs = true -> nw_srt e = nw_srt e') -> saw rnd e p cs q os -> saw rnd e' p cs q os.
  Proof.
    intros HP HS H. induction H as [|cs q os lb ub heur dfs q' r H IH E|cs q os len2 lb ub heur dfs q' r H IH E|cs q os q' H IH E|cs q os T en fuel q' en' l H IH E1 E2];
      try (rewrite existsb_app in HS; specialize (IH ltac:(intros X; apply HS; rewrite X; auto))).
    - constructor.
    - econstructor; eauto. rewrite <- E. symmetry. apply nw_get_same; auto. { eapply saw_history; eauto. } intros ->. apply HS. cbn. apply orb_true_r.
    - econstructor; eauto. rewrite <- E. symmetry. apply nw_correspondence_same; auto. { eapply saw_history; eauto. } intros ->. apply HS. cbn. apply orb_true_r.
    - econstructor; eauto.
    - pose proof (saw_history e cs q os HP H) as HQ.
      assert (X : exists x, nw_all_cliques e' q T = Ret x).
      { unfold nw_all_cliques in *. destruct (nw_loaded q); [eauto|discriminate]. }
      destruct X as (en2 & X). destruct (nw_list_same q e e' T en en2 (nw_lr e) (nw_lr e') HQ E1 X) as (q1 & l1 & HF).
      pose proof (nw_drain_mono _ _ _ (fuel + S (length l1)) _ _ _ E2 ltac:(lia)) as E3.
      destruct (HF (fuel + S (length l1)) ltac:(lia)) as [(y & D1) (z & D2)]. rewrite E3 in D1. injection D1 as -> -> ->.
      eapply saw_list; eauto.
  Qed.
End Det.
