(** SatFacts: a search that has nothing left to do changes nothing (C20). *)
From Verif Require Import Base MBits MUtils MGraph MHeur MStack MRec MEnum MApi SpecBits BaseFacts BitsFacts SetFacts SortFacts RowFacts ConstructFacts CardFacts SearchBase StackFacts RecFacts HeurFacts SearchFacts.
From Coq Require Import Sorting.Sorted Sorting.Permutation.
Local Open Scope nat_scope.
Local Arguments Nat.sub : simpl never.
Local Arguments Nat.mul : simpl never.

(** If the computation ends normally, its result satisfies [Q]. *)
Definition lp {A} (o : outcome A) (Q : A -> Prop) : Prop := match o with Ok x => Q x | _ => True end.

Lemma lp_bind {A B} (x : outcome A) (f : A -> outcome B) Q : lp x (fun a => lp (f a) Q) -> lp (bind x f) Q.
Proof. destruct x; auto. Qed.

Lemma lp_true {A} (x : outcome A) : lp x (fun _ => True).
Proof. destruct x; exact I. Qed.

Lemma lp_mono {A} (x : outcome A) (P Q : A -> Prop) : lp x P -> (forall a, P a -> Q a) -> lp x Q.
Proof. destruct x; simpl; auto. Qed.

Lemma wp_lp {A} (x : outcome A) (P Q : A -> Prop) : wp x P -> lp x Q -> wp x (fun a => P a /\ Q a).
Proof. destruct x; simpl; auto. Qed.

(** The two fields a search without improvement keeps. *)
Definition same_best (g g' : graph) : Prop := CUR_MAX_SIZE g' = CUR_MAX_SIZE g /\ CLIQUE_LIMIT g' = CLIQUE_LIMIT g.

Lemma lp_load g k : lp (load_memory g k) (fun r => same_best g (fst r)).
Proof. unfold load_memory. destruct (_ <? _); simpl; auto. split; auto. Qed.

Lemma lp_clear g k : lp (clear_memory g k) (same_best g).
Proof.
  unfold clear_memory. destruct (_ <? _); simpl; auto. apply lp_bind. eapply lp_mono; [apply lp_true|]. intros m _. split; auto.
Qed.

Lemma lp_root_state lr g v : lp (root_state lr g v) (fun r => same_best g (fst r)).
Proof.
  unfold root_state. apply lp_bind. eapply lp_mono; [apply lp_load|]. intros [g1 p1] [A1 A2]. cbn [fst] in *.
  apply lp_bind. eapply lp_mono; [apply lp_load|]. intros [g2 p2] [B1 B2]. cbn [fst] in *.
  apply lp_bind. eapply lp_mono; [apply lp_true|]. intros m _. split; cbn [fst set_mem CUR_MAX_SIZE CLIQUE_LIMIT]; congruence.
Qed.

(** The stack search does nothing when the limit is reached. *)
Lemma sd_at_limit lr g cur : CLIQUE_LIMIT g <= CUR_MAX_SIZE g ->
  lp (sd_process_vertex lr g cur) (fun g' => CUR_MAX_SIZE g' = CUR_MAX_SIZE g).
Proof.
  intros HL. unfold sd_process_vertex. apply lp_bind. eapply lp_mono; [apply lp_true|]. intros v _. cbv zeta.
  apply lp_bind. eapply lp_mono; [apply lp_root_state|]. intros [g1 x] [A1 A2]. cbn [fst] in *.
  apply lp_bind. eapply lp_mono; [apply lp_true|]. intros [m pot] _.
  destruct (_ <=? _). { eapply lp_mono; [apply lp_clear|]. intros g' [B1 B2]. rewrite B1. exact A1. }
  apply lp_bind.
  assert (R : forall n, lp (run2 (S n) (sd_turn cur v) (set_mem g1 m, [x], 1)) (fun r => fst r = set_mem g1 m)).
  { intros k. unfold run2. apply lp_bind.
    enough (E : forall k, loop2 k (sd_turn cur v) (set_mem g1 m, [x], 1) = Ok (Done (set_mem g1 m, [x]))) by (rewrite E; reflexivity).
    clear k. induction k as [|k IH]; cbn [loop2].
    - unfold sd_turn. cbn [set_mem CUR_MAX_SIZE CLIQUE_LIMIT].
      replace (CLIQUE_LIMIT g1 <=? CUR_MAX_SIZE g1) with true by (symmetry; apply Nat.leb_le; lia). reflexivity.
    - rewrite IH. reflexivity. }
  eapply lp_mono; [apply R|]. intros [g2 states] E. cbn [fst] in E. subst g2.
  apply lp_bind. eapply lp_mono with (P := fun g' => CUR_MAX_SIZE g' = CUR_MAX_SIZE g).
  { destruct states; [exact A1|]. eapply lp_mono; [apply lp_clear|]. intros g' [B1 B2]. rewrite B1. exact A1. }
  intros g' E. eapply lp_mono; [apply lp_clear|]. intros g'' [B1 B2]. congruence.
Qed.

Section Graph.
  Variables (a : pairs) (nv : nat).
  Hypothesis HC : gctx a nv.
  Hypothesis Hrow0 : rlen a 0 = 1.

  (** No root is left that could improve the incumbent. *)
  Definition spent (g : graph) (mcs : nat -> nat) : Prop :=
    no_larger a (CUR_MAX_LOC g) (CUR_MAX_SIZE g) /\ forall v, v < nv -> mcs v <= CUR_MAX_SIZE g \/ no_larger a v (CUR_MAX_SIZE g).

  Lemma stores_two g0 g : called a nv g0 g -> CUR_MAX_SIZE g0 < CUR_MAX_SIZE g -> stores a g (CUR_MAX_LOC g) (CUR_MAX_SIZE g).
  Proof. intros C L. destruct (ca_best _ _ _ _ C) as [(E & _)|(_ & S)]; [lia|auto]. Qed.

  (** A root search cannot improve on what bounds it. *)
  Lemma no_gain g0 g v : called a nv g0 g -> (CUR_MAX_SIZE g0 < CUR_MAX_SIZE g -> CUR_MAX_LOC g = v) ->
    1 <= CUR_MAX_SIZE g0 -> no_larger a v (CUR_MAX_SIZE g0) -> CUR_MAX_SIZE g = CUR_MAX_SIZE g0.
  Proof.
    intros C L G2 NL. pose proof (called_le _ _ _ _ C). destruct (Nat.eq_dec (CUR_MAX_SIZE g) (CUR_MAX_SIZE g0)); auto.
    pose proof (stores_two g0 g C ltac:(lia)) as (K & _ & R & P & E). rewrite L in * by lia.
    specialize (NL K R P). rewrite E in NL. specialize (NL ltac:(lia)). lia.
  Qed.

  (** The stack search leaves nothing to improve, unless it reaches the limit. *)
  Lemma sd_spent srt lr g0 mcs0 : good a nv g0 mcs0 ->
    wp (sd_process_graph lr g0) (fun r => let g := fst r in exists mcs, good a nv g mcs /\ called a nv g0 g
       /\ (CLIQUE_LIMIT g0 <= CUR_MAX_SIZE g \/ spent g mcs) /\ (hspent a nv srt g0 mcs0 -> hspent a nv srt g mcs)).
  Proof.
    intros G0. unfold sd_process_graph. apply wp_bind. pose proof (go_loc _ _ _ _ _ (proj1 G0)) as GL.
    destruct (good_room_s a nv g0 mcs0 _ _ (proj1 G0) GL) as [R1 R2].
    eapply wp_mono; [apply (sd_process_vertex_spec a nv _ lr g0 mcs0 HC GL (go_shape _ _ _ _ _ (proj1 G0)) (go_eb _ _ _ _ _ (proj1 G0)) (proj2 G0) R1)|].
    intros g1 [[S1 S2 S3] D1]. destruct (prog_step a nv g0 g1 mcs0 _ GL G0 S1 S2 S3) as (mcs1 & G1 & C1 & M1 & M2).
    pose proof (core_lim _ _ (ca_core _ _ _ _ C1)) as LIM1. pose proof (called_le _ _ _ _ C1) as CL1.
    assert (LOC1 : CUR_MAX_LOC g1 = CUR_MAX_LOC g0).
    { destruct (pr_best _ _ _ _ _ _ S1) as [(_ & B & _)|(_ & B & _)]; auto. }
    apply wp_bind.
    rewrite (sh_nv _ _ _ _ (go_shape _ _ _ _ _ (proj1 G1))).
    apply (wp_for 0 nv _ (fun i g => exists mcs, good a nv g mcs /\ called a nv g0 g
       /\ (CLIQUE_LIMIT g0 <= CUR_MAX_SIZE g \/ no_larger a (CUR_MAX_LOC g) (CUR_MAX_SIZE g)
           /\ forall v, v < i -> mcs v <= CUR_MAX_SIZE g \/ no_larger a v (CUR_MAX_SIZE g))
       /\ (hspent a nv srt g0 mcs0 -> hspent a nv srt g mcs))); [lia| | |].
    - exists mcs1. split; auto. split; auto. split.
      + destruct D1 as [D1|D1]; [right|left; lia]. split; [|intros; lia]. rewrite LOC1. auto.
      + intros [Q1 Q2]. split; [rewrite LOC1; eapply hstep_quiet; eauto|]. destruct Q2 as [Q2|Q2]; [left; lia|right].
        intros v Hv. destruct (Nat.eq_dec v (CUR_MAX_LOC g0)) as [->|NE].
        * right. eapply hstep_quiet; eauto.
        * rewrite M1 by auto. destruct (Q2 v Hv) as [Q3|Q3]; [left; lia|right; eapply hstep_quiet; eauto].
    - intros i g [_ Hi] (mcs & G & C & V & HQ). rewrite (good_rd a nv g mcs i G Hi). cbn [bind mkvert vmcs].
      pose proof (core_lim _ _ (ca_core _ _ _ _ C)) as LIM.
      destruct ((mcs i <=? CUR_MAX_SIZE g) || (CLIQUE_LIMIT g <=? CUR_MAX_SIZE g)) eqn:E.
      + apply wp_ok. exists mcs. split; auto. split; auto. split; auto. apply orb_prop in E. rewrite !Nat.leb_le in E.
        destruct V as [V|[V1 V2]]; auto. destruct E as [E|E]; [|left; lia]. right. split; auto. intros v Hv.
        destruct (Nat.eq_dec v i) as [->|]; auto. apply V2. lia.
      + apply orb_false_elim in E. destruct E as [E1 E2]. apply Nat.leb_gt in E1, E2.
        destruct (good_room_s a nv g mcs _ i (proj1 G) Hi) as [R1' R2'].
        eapply wp_mono; [apply (sd_process_vertex_spec a nv i lr g mcs HC Hi (go_shape _ _ _ _ _ (proj1 G)) (go_eb _ _ _ _ _ (proj1 G)) (proj2 G) R1')|].
        intros g' [[S1' S2' S3'] D]. destruct (prog_step a nv g g' mcs i Hi G S1' S2' S3') as (mcs' & A1 & A2 & A3 & A4).
        pose proof (core_lim _ _ (ca_core _ _ _ _ A2)) as LIM'. pose proof (called_le _ _ _ _ A2) as CL.
        exists mcs'. split; auto. split; [apply (called_trans a nv g0 g g'); auto; intros; apply (proj1 G)|].
        split.
        2: { intros H0. destruct (HQ H0) as [Q1 Q2]. destruct Q2 as [Q2|Q2]; [lia|].
          assert (QI : quiet a srt i (CUR_MAX_SIZE g')).
          { destruct (Q2 i Hi) as [Q3|Q3]; [lia|eapply hstep_quiet; eauto]. }
          split.
          - destruct (pr_best _ _ _ _ _ _ S1') as [(_ & B & _)|(_ & B & _)]; rewrite B; auto. eapply hstep_quiet; eauto.
          - right. intros v Hv. destruct (Nat.eq_dec v i) as [->|NE]; auto. rewrite A3 by auto.
            destruct (Q2 v Hv) as [Q3|Q3]; [left; lia|right; eapply hstep_quiet; eauto]. }
        destruct V as [V|[V1 V2]]; [left; lia|]. destruct D as [D|D]; [right|left; lia]. split.
        * destruct (pr_best _ _ _ _ _ _ S1') as [(_ & B & _)|(_ & B & _)]; rewrite B; auto. eapply no_larger_le; eauto.
        * intros v Hv. destruct (Nat.eq_dec v i) as [->|NE]; auto. rewrite A3 by auto.
          destruct (V2 v ltac:(lia)) as [V3|V3]; [left; lia|right; eapply no_larger_le; eauto].
    - intros g (mcs & G & C & V & HQ). apply wp_ok. cbn [fst]. exists mcs. split; auto.
  Qed.

  Lemma spent_bound g mcs : good a nv g mcs -> nz a g -> spent g mcs -> 1 <= CUR_MAX_SIZE g.
  Proof.
    intros G [_ Z] [S _]. destruct (CUR_MAX_SIZE g) as [|k] eqn:E; [|lia]. specialize (Z eq_refl).
    pose proof (bound2 a nv HC _ _ (go_loc _ _ _ _ _ (proj1 G)) Z S). lia.
  Qed.

  (** ... and then another run changes nothing. *)
  Lemma sd_still lr g0 mcs0 : good a nv g0 mcs0 -> CLIQUE_LIMIT g0 <= CUR_MAX_SIZE g0 \/ 1 <= CUR_MAX_SIZE g0 /\ spent g0 mcs0 ->
    wp (sd_process_graph lr g0) (fun r => CUR_MAX_SIZE (fst r) = CUR_MAX_SIZE g0 /\ called a nv g0 (fst r)).
  Proof.
    intros G0 H. unfold sd_process_graph. apply wp_bind.
    assert (STEP : forall g mcs i, good a nv g mcs -> i < nv -> CUR_MAX_SIZE g = CUR_MAX_SIZE g0 -> CLIQUE_LIMIT g = CLIQUE_LIMIT g0 ->
              no_larger a i (CUR_MAX_SIZE g0) \/ CLIQUE_LIMIT g0 <= CUR_MAX_SIZE g0 ->
              CLIQUE_LIMIT g0 <= CUR_MAX_SIZE g0 \/ 1 <= CUR_MAX_SIZE g0 ->
              wp (sd_process_vertex lr g i) (fun g' => CUR_MAX_SIZE g' = CUR_MAX_SIZE g0 /\ called a nv g g'
                  /\ exists mcs', good a nv g' mcs' /\ forall v, v <> i -> mcs' v = mcs v)).
    { intros g mcs i G Hi E1 E2 D1 D2. destruct (good_room_s a nv g mcs _ i (proj1 G) Hi) as [R1 R2].
      eapply wp_mono; [apply wp_lp; [apply (sd_process_vertex_spec a nv i lr g mcs HC Hi (go_shape _ _ _ _ _ (proj1 G)) (go_eb _ _ _ _ _ (proj1 G)) (proj2 G) R1)|]|].
      { instantiate (1 := fun g' => CLIQUE_LIMIT g <= CUR_MAX_SIZE g -> CUR_MAX_SIZE g' = CUR_MAX_SIZE g).
        destruct (Nat.le_gt_cases (CLIQUE_LIMIT g) (CUR_MAX_SIZE g)) as [L|L].
        - eapply lp_mono; [apply sd_at_limit; auto|]. auto.
        - eapply lp_mono; [apply lp_true|]. intros; lia. }
      intros g' [[[S1 S2 S3] D] LM]. destruct (prog_step a nv g g' mcs i Hi G S1 S2 S3) as (mcs' & A1 & A2 & A3 & A4).
      split; [|split; eauto]. destruct (Nat.le_gt_cases (CLIQUE_LIMIT g0) (CUR_MAX_SIZE g0)) as [L|L]; [rewrite LM; lia|].
      rewrite <- E1. eapply (no_gain g g' i); auto.
      - intros GT. destruct (pr_best _ _ _ _ _ _ S1) as [(B & _)|(_ & B & _)]; [lia|auto].
      - lia.
      - destruct D1 as [D1|D1]; [rewrite E1; auto|lia]. }
    assert (D2 : CLIQUE_LIMIT g0 <= CUR_MAX_SIZE g0 \/ 1 <= CUR_MAX_SIZE g0) by (destruct H as [?|[? _]]; auto).
    eapply wp_mono; [apply (STEP g0 mcs0 _ G0 (go_loc _ _ _ _ _ (proj1 G0))); auto|].
    { destruct H as [H|[_ [H _]]]; auto. }
    intros g1 (E1 & C1 & mcs1 & G1 & M1). apply wp_bind.
    rewrite (sh_nv _ _ _ _ (go_shape _ _ _ _ _ (proj1 G1))).
    apply (wp_for 0 nv _ (fun i g => CUR_MAX_SIZE g = CUR_MAX_SIZE g0 /\ called a nv g0 g /\ exists mcs, good a nv g mcs
              /\ forall v, i <= v -> v <> CUR_MAX_LOC g0 -> mcs v = mcs0 v)); [lia| | |].
    - split; auto. split; auto. exists mcs1. split; auto.
    - intros i g [_ Hi] (E & C & mcs & G & M). rewrite (good_rd a nv g mcs i G Hi). cbn [bind mkvert vmcs].
      pose proof (core_lim _ _ (ca_core _ _ _ _ C)) as LIM.
      destruct ((mcs i <=? CUR_MAX_SIZE g) || (CLIQUE_LIMIT g <=? CUR_MAX_SIZE g)) eqn:EB.
      + apply wp_ok. split; auto. split; auto. exists mcs. split; auto. intros; apply M; auto. lia.
      + apply orb_false_elim in EB. destruct EB as [B1 B2]. apply Nat.leb_gt in B1, B2.
        eapply wp_mono; [apply (STEP g mcs i G Hi); auto|].
        { destruct H as [H|[_ [H1 H2]]]; auto. left. destruct (Nat.eq_dec i (CUR_MAX_LOC g0)) as [->|NE]; auto.
          destruct (H2 i Hi) as [H3|H3]; auto. rewrite <- M in H3 by auto. lia. }
        intros g' (E' & C' & mcs' & G' & M'). split; auto. split; [apply (called_trans a nv g0 g g'); auto; intros; apply (proj1 G)|].
        exists mcs'. split; auto. intros v Hv NL. rewrite M' by lia. apply M; auto. lia.
    - intros g (E & C & _). apply wp_ok. auto.
  Qed.

  (** ** The whole search *)
  Definition settled (srt : list vdata -> list vdata) (heur dfs : bool) (g : graph) (mcs : nat -> nat) : Prop :=
    (heur = true -> hspent a nv srt g mcs)
    /\ (dfs = true -> CLIQUE_LIMIT g <= CUR_MAX_SIZE g \/ spent g mcs).

  Lemma search_settles e g0 mcs0 start heur dfs : (forall l, Permutation (srt_fun e l) l) -> clock e = None -> good a nv g0 mcs0 ->
    wp (find_max_cliques e g0 start heur dfs) (fun r => exists mcs, good a nv (fst r) mcs /\ settled (srt_fun e) heur dfs (fst r) mcs).
  Proof.
    intros HP EC G0. unfold find_max_cliques. apply wp_bind.
    assert (H1 : wp (if heur then heur_process_graph (srt_fun e) g0 else Ok g0)
              (fun g1 => good a nv g1 mcs0 /\ (heur = true -> hspent a nv (srt_fun e) g1 mcs0))).
    { destruct heur; [|apply wp_ok; split; auto; discriminate].
      eapply wp_mono; [apply (heur_process_graph_spec a nv HC Hrow0 (srt_fun e) g0 mcs0 HP G0)|]. intros g (A1 & _ & _ & A2 & _). auto. }
    eapply wp_mono; [exact H1|]. intros g1 [G1 Q1]. rewrite EC. destruct dfs.
    - eapply wp_mono; [apply (sd_spent (srt_fun e) (lr_order e) g1 mcs0 G1)|]. intros [g i] (mcs & G & C & SP & HQ). cbn [fst] in *.
      exists mcs. split; auto. split; auto. intros _. rewrite (core_lim _ _ (ca_core _ _ _ _ C)). auto.
    - apply wp_ok. exists mcs0. split; auto. split; auto. discriminate.
  Qed.

  Lemma search_still e g0 mcs0 start heur dfs : (forall l, Permutation (srt_fun e l) l) -> clock e = None -> good a nv g0 mcs0 -> nz a g0 ->
    settled (srt_fun e) heur dfs g0 mcs0 ->
    wp (find_max_cliques e g0 start heur dfs) (fun r => CUR_MAX_SIZE (fst r) = CUR_MAX_SIZE g0 /\ called a nv g0 (fst r)).
  Proof.
    intros HP EC G0 Z0 [ST1 ST2]. unfold find_max_cliques. apply wp_bind.
    assert (H1 : wp (if heur then heur_process_graph (srt_fun e) g0 else Ok g0)
              (fun g1 => good a nv g1 mcs0 /\ called a nv g0 g1 /\ CUR_MAX_SIZE g1 = CUR_MAX_SIZE g0)).
    { destruct heur; [|apply wp_ok; split; auto; split; auto; apply called_refl].
      eapply wp_mono; [apply (heur_process_graph_spec a nv HC Hrow0 (srt_fun e) g0 mcs0 HP G0)|]. intros g (A1 & A2 & _ & _ & A3). auto. }
    eapply wp_mono; [exact H1|]. intros g1 (G1 & C1 & E1). rewrite EC. destruct dfs; [|apply wp_ok; auto].
    pose proof (core_lim _ _ (ca_core _ _ _ _ C1)) as LIM1.
    assert (LOC1 : CUR_MAX_LOC g1 = CUR_MAX_LOC g0) by (destruct (ca_best _ _ _ _ C1) as [(_ & B & _)|(B & _)]; auto; lia).
    eapply wp_mono; [apply (sd_still (lr_order e) g1 mcs0 G1)|].
    - destruct (ST2 eq_refl) as [L|SP]; [left; lia|right]. rewrite E1. split; [eapply spent_bound; eauto|].
      destruct SP as [SP1 SP2]. split; rewrite ?LOC1, E1; auto.
    - intros [g i] [E C]. cbn [fst] in *. split; [congruence|]. eapply called_trans; [|exact C1|exact C]. intros; apply (proj1 G1).
  Qed.
End Graph.
