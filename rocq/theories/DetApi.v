(** DetApi: searches and enumerations of Graphs do not depend on the order in which the two bitsets of a root are allocated. *)
From Verif Require Import Base MBits MUtils MGraph MHeur MStack MRec MEnum MApi Spec SpecBits BaseFacts BitsFacts SetFacts SortFacts RowFacts ConstructFacts CardFacts LoadFacts SearchBase StackFacts SearchFacts CliqueFacts ApiFacts EnumFacts EnumApi NWEnumDet DetFacts EnumDet SpecChoice.
Local Open Scope nat_scope.

Lemma en_small lr lr' g en : e_size en <= 1 -> en_process_graph lr g en = en_process_graph lr' g en.
Proof.
  intros H. unfold en_process_graph. destruct (Nat.eqb_spec (e_size en) 0); auto. destruct (Nat.eqb_spec (e_size en) 1); [|lia]. cbn [andb].
  destruct (Nat.ltb_spec (e_cur en) (n_vert g)) as [Hc|Hc]; auto.
  assert (T : forall lr, en_turn lr (g, en) = Ok (Done (g, en, e_cur en))).
  { intros l. unfold en_turn. destruct (Nat.ltb_spec (e_cur en) (n_vert g)); [lia|auto]. }
  assert (L : forall lr f, loop2 f (en_turn lr) (g, en) = Ok (Done (g, en, e_cur en))).
  { intros l. induction f as [|f IH]; cbn [loop2]; auto. rewrite IH. reflexivity. }
  unfold run2. rewrite !L. reflexivity.
Qed.

Lemma en_small_size lr g en g' en' v : e_size en <= 1 -> en_process_graph lr g en = Ok (g', en', v) -> e_size en' <= 1.
Proof.
  intros H. unfold en_process_graph. destruct (Nat.eqb_spec (e_size en) 0); [intros E; injection E as <- <- <-; auto|]. destruct (Nat.eqb_spec (e_size en) 1); [|lia]. cbn [andb].
  destruct (Nat.ltb_spec (e_cur en) (n_vert g)) as [Hc|Hc].
  - destruct (rd (vertices g) (e_cur en)); cbn [bind]; try discriminate. destruct (live g); cbn [bind]; try discriminate.
    destruct (bits_clear _ _ _); cbn [bind]; try discriminate. destruct (bits_set _ _ _); cbn [bind]; try discriminate.
    intros E. injection E as <- <- <-. auto.
  - assert (T : en_turn lr (g, en) = Ok (Done (g, en, e_cur en))).
    { unfold en_turn. destruct (Nat.ltb_spec (e_cur en) (n_vert g)); [lia|auto]. }
    assert (L : forall f, loop2 f (en_turn lr) (g, en) = Ok (Done (g, en, e_cur en))).
    { induction f as [|f IH]; cbn [loop2]; auto. rewrite IH. reflexivity. }
    unfold run2. rewrite L. cbn [bind]. intros E. injection E as <- <- <-. auto.
Qed.

Lemma drain_small lr lr' fuel : forall p en, e_size en <= 1 -> drain fuel lr p en = drain fuel lr' p en.
Proof.
  induction fuel as [|fuel IH]; intros p en H; auto. cbn [drain]. unfold next_clique. destruct (p_G p) as [g|]; auto.
  rewrite (en_small lr lr' g en H). destruct (en_process_graph lr' g en) as [[[g' en'] v]| |] eqn:E; cbn [bind]; auto.
  pose proof (en_small_size _ _ _ _ _ _ H E). destruct (p_nvert p <? v); cbn [bind]; auto.
  destruct (stored_clique g' v) as [[g2 c]| |]; cbn [bind]; auto. rewrite IH; auto.
Qed.

Section Gra.
  Variables (a : pairs) (n : nat) (adj : nat -> nat -> Prop).
  Hypothesis GR : gra a n adj.
  Notation nv := (n + 1).
  Let HC := gra_ctx a n adj GR.

  Lemma find_same g mcs e e' start heur dfs : good a nv g mcs -> permutes e -> clock e = clock e' -> (heur = true -> srt_fun e = srt_fun e') ->
    find_max_cliques e g start heur dfs = find_max_cliques e' g start heur dfs.
  Proof.
    intros G HP HK HS. unfold find_max_cliques. rewrite <- HK. destruct heur.
    - rewrite <- HS by auto. pose proof (heur_process_graph_spec a nv HC (gra_len0 a n adj GR) (srt_fun e) g mcs HP G) as H1.
      destruct (heur_process_graph (srt_fun e) g) as [g1| |]; cbn [ends_with bind] in *; auto. destruct (clock e); auto. destruct dfs; auto.
      apply (sd_process_graph_same a nv HC _ _ g1 mcs (proj1 H1)).
    - cbn [bind]. destruct (clock e); auto. destruct dfs; auto. apply (sd_process_graph_same a nv HC _ _ g mcs G).
  Qed.

  Lemma hinv_get_same q e e' lb ub heur dfs cont : 1 <= n -> hinv a n q -> permutes e -> clock e = clock e' -> (heur = true -> srt_fun e = srt_fun e') ->
    get_max_clique e q lb ub heur dfs cont = get_max_clique e' q lb ub heur dfs cont.
  Proof.
    intros Hn (g & mcs & m & cu & fin & -> & G & _) HP HK HS. rewrite !(get_unfold n) by auto.
    rewrite (find_same (prepared g lb ub) mcs e e'); auto; [apply prepared_good; auto|].
    intros H. apply HS. destruct (cont && negb (cu =? 0)); [discriminate|auto].
  Qed.

  Section Run.
    Variables (g0 : graph) (mcs : nat -> nat) (k : nat).
    Hypothesis RD : ready a n g0 mcs.
    Hypothesis Hk : 2 <= k.
    Notation gfollows := (gfollows a nv k g0).
    Notation xstep := (xstep a nv k mcs).

    Lemma drain_det lr m cu fin fuel : forall g en s q en' l, gfollows lr g en s ->
      drain fuel lr (mkP (Some g) n m cu fin) en = Ok (q, en', l) ->
      exists g' s', q = mkP (Some g') n m cu fin /\ gfollows lr g' en' s' /\ reach xstep s s' /\ xstep s' = None
        /\ map (fun x => decode a (fst x) (snd x)) (snd s') = rev l ++ map (fun x => decode a (fst x) (snd x)) (snd s).
    Proof.
      induction fuel as [|fuel IH]; intros g en s q en' l F E; [discriminate|]. cbn [drain] in E. unfold next_clique in E. cbn [p_G p_nvert] in E.
      destruct (en_process_graph lr g en) as [[[g1 en1] v]| |] eqn:EP; cbn [bind] in E; try discriminate.
      destruct (en_process_graph_det a nv k g0 mcs HC (re_shape _ _ _ _ RD) (re_eb _ _ _ _ RD) (re_room _ _ _ _ RD) Hk lr g en s (g1, en1, v) F EP) as (s1 & F1 & R1 & C1).
      destruct C1 as [(Hv & K & E1 & RP)|(Hv & E1 & E2)].
      - destruct (Nat.ltb_spec n v); [lia|]. cbn [bind] in E.
        assert (KE : kept a nv g0 g1) by (destruct s1 as [[? ?] ?]; apply F1).
        rewrite (stored_decode a n adj GR g1 mcs v K) in E; [|eapply kept_shape; [apply (re_shape _ _ _ _ RD)|exact KE]|lia|exact RP].
        cbn [bind] in E. unfold set_G in E. cbn [p_nvert p_nedges p_cur p_done] in E.
        destruct (drain fuel lr (mkP (Some g1) n m cu fin) en1) as [[[q2 en2] l2]| |] eqn:ED; cbn [bind] in E; try discriminate.
        injection E as <- <- <-. destruct (IH g1 en1 s1 q2 en2 l2 F1 ED) as (g' & s' & -> & F' & R' & N' & E').
        exists g', s'. split; auto. split; auto. split; [eapply reach_trans; eauto|]. split; auto.
        rewrite E', E1. cbn [rev map fst snd]. rewrite <- app_assoc. reflexivity.
      - destruct (Nat.ltb_spec n v); [|lia]. cbn [bind] in E. injection E as <- <- <-. exists g1, s1. split; auto. split; auto. split; auto. split; auto. rewrite E1. reflexivity.
    Qed.

    Lemma drain_same lr lr' m cu fin f f' q q' x x' l l' :
      drain f lr (mkP (Some g0) n m cu fin) (new_enum k) = Ok (q, x, l) -> drain f' lr' (mkP (Some g0) n m cu fin) (new_enum k) = Ok (q', x', l') ->
      q = q' /\ l = l'.
    Proof.
      intros DR DR'.
      assert (F : forall lr, gfollows lr g0 (new_enum k) (1, [], [])).
      { intros lr0. split; auto. split; [apply (ready_kept _ _ _ _ RD)|]. split; [intros v Hv; cbn [find]; auto|]. cbn [new_enum e_size e_states e_req].
        split; auto. split; auto. right. split; auto. split; auto. split; auto. split; [apply (re_zero _ _ _ _ RD)|]. split; auto. lia. }
      destruct (drain_det lr m cu fin f _ _ _ _ _ _ (F lr) DR) as (g1 & s1 & -> & F1 & R1 & N1 & E1).
      destruct (drain_det lr' m cu fin f' _ _ _ _ _ _ (F lr') DR') as (g2 & s2 & -> & F2 & R2 & N2 & E2).
      pose proof (reach_end xstep _ _ _ R1 R2 N1 N2) as ->. cbn [snd map] in E1, E2. rewrite app_nil_r in E1, E2.
      split.
      - assert (g1 = g2) as -> by (eapply (gfollows_end a nv k g0 mcs (re_eb _ _ _ _ RD) Hk); eauto). reflexivity.
      - rewrite <- (rev_involutive l), <- (rev_involutive l'), <- E1, <- E2. reflexivity.
    Qed.
  End Run.

  Lemma hinv_list_same q lr lr' k fuel q' x l : hinv a n q -> drain fuel lr q (new_enum k) = Ok (q', x, l) ->
    exists x', drain fuel lr' q (new_enum k) = Ok (q', x', l).
  Proof.
    intros (g & mcs & m & cu & fin & -> & G & _) E. destruct (Nat.le_gt_cases k 1) as [Hk|Hk].
    { exists x. rewrite <- E. apply drain_small. exact Hk. }
    pose proof (good_ready a n g mcs G) as RD.
    destruct (drain_ready a n adj GR g mcs RD m cu fin lr' k) as (l' & (g' & en' & DR & _) & _).
    pose proof (DR (S (length l')) ltac:(lia)) as D1.
    destruct (drain_same g mcs k RD Hk lr lr' m cu fin _ _ _ _ _ _ _ _ E D1) as [-> ->].
    exists en'. apply DR. exact (drain_len _ _ _ _ _ _ _ E).
  Qed.
End Gra.

Section Det.
  Variables (p : pygraph) (n : nat) (adj : nat -> nat -> Prop).
  Hypothesis MK : made p n adj.
  Hypothesis HE : has_edge adj.
  Hypothesis LV : storage_live p.

  Lemma history_in q : history p q -> exists a, gra a n adj /\ 1 <= n /\ hinv a n q.
  Proof.
    intros H. destruct (made_hinv p n adj MK HE LV) as (a & cap & m & g & GR & B & E & L & G & Z & W & S & HI & X).
    pose proof (has_edge_n a n adj GR HE) as Hn. exists a. split; auto. split; auto. apply (history_hinv a n adj GR p q Hn HI H).
  Qed.

  Lemma get_same q e e' lb ub heur dfs cont : history p q -> permutes e -> clock e = clock e' -> (heur = true -> srt_fun e = srt_fun e') ->
    get_max_clique e q lb ub heur dfs cont = get_max_clique e' q lb ub heur dfs cont.
  Proof. intros H HP HK HS. destruct (history_in q H) as (a & GR & Hn & HI). apply (hinv_get_same a n adj GR); auto. Qed.

  Lemma correspondence_same q e e' len2 lb ub heur dfs cont : history p q -> permutes e -> clock e = clock e' -> (heur = true -> srt_fun e = srt_fun e') ->
    get_correspondence e q len2 lb ub heur dfs cont = get_correspondence e' q len2 lb ub heur dfs cont.
  Proof. intros H HP HK HS. unfold get_correspondence. rewrite (get_same q e e' lb ub heur dfs cont); auto. Qed.

  Lemma list_same q lr lr' k fuel q' x l : history p q -> drain fuel lr q (new_enum k) = Ok (q', x, l) ->
    exists x', drain fuel lr' q (new_enum k) = Ok (q', x', l).
  Proof. intros H E. destruct (history_in q H) as (a & GR & Hn & HI). apply (hinv_list_same a n adj GR q lr lr' k fuel q' x l HI E). Qed.

  Lemma all_new q k en : all_cliques q k = Ret en -> en = new_enum k.
  Proof. unfold all_cliques. destruct (loaded q); congruence. Qed.

  Lemma call_law lr srt clk lb : (forall l, Permutation (srt l) l) ->
    match clk with Some c => 1 <= lb \/ forall i j, i <= j -> c i = true -> c j = true | None => True end -> lawful (mkEnv lr srt clk) lb.
  Proof. intros HP HL. split; auto. unfold steady. cbn [clock]. destruct clk; tauto. Qed.

  Lemma ran_history lr srt cs q os : (forall l, Permutation (srt l) l) -> Forall call_lawful cs -> ran lr srt p cs q os -> history p q.
  Proof.
    intros HP HL H. induction H as [|cs q os clk lb ub heur dfs cont q' r H IH E|cs q os clk len2 lb ub heur dfs cont q' r H IH E|cs q os q' H IH E|cs q os k en fuel q' en' l H IH E1 E2];
      [constructor| | | |]; apply Forall_app in HL; destruct HL as [HL HC]; specialize (IH HL); inversion HC as [|? ? HC1 _]; subst; cbn [call_lawful] in HC1.
    - eapply h_get; [exact IH| |exact E]. apply call_law; auto.
    - unfold get_correspondence in E. destruct (get_max_clique (mkEnv (lr (length cs)) srt clk) q lb ub heur dfs cont) as [[q1 r1]| |] eqn:EG; cbn [bind] in E; try discriminate.
      destruct r1 as [c|x]; [destruct (correspondence2 len2 c); cbn [bind] in E; try discriminate|]; injection E as <- <-; (eapply h_get; [exact IH| |exact EG]; apply call_law; auto).
    - eapply h_reset; eauto.
    - rewrite (all_new _ _ _ E1) in E2. eapply h_all; eauto.
  Qed.

  Lemma ran_same lr lr' srt srt' cs q os : (forall l, Permutation (srt l) l) -> Forall call_lawful cs -> (existsb call_heuristic cs = true -> srt = srt') ->
    ran lr srt p cs q os -> ran lr' srt' p cs q os.
  Proof.
    intros HP HL HS H. induction H as [|cs q os clk lb ub heur dfs cont q' r H IH E|cs q os clk len2 lb ub heur dfs cont q' r H IH E|cs q os q' H IH E|cs q os k en fuel q' en' l H IH E1 E2];
      [constructor| | | |]; apply Forall_app in HL; destruct HL as [HL HC]; rewrite existsb_app in HS; specialize (IH HL ltac:(intros X; apply HS; rewrite X; auto));
      pose proof (ran_history lr srt cs q os HP HL H) as HQ.
    - apply (ran_get _ _ _ _ q); auto. rewrite <- E. symmetry. apply get_same; auto. cbn [srt_fun]. intros ->. apply HS. cbn. apply orb_true_r.
    - apply (ran_correspondence _ _ _ _ q); auto. rewrite <- E. symmetry. apply correspondence_same; auto. cbn [srt_fun]. intros ->. apply HS. cbn. apply orb_true_r.
    - eapply ran_reset; eauto.
    - pose proof (all_new _ _ _ E1) as ->. destruct (list_same q _ (lr' (length cs)) k fuel q' en' l HQ E2) as (x' & E3). eapply ran_list; eauto.
  Qed.
End Det.
