(** GenProps: the properties of the generic wrappers. *)
From Verif Require Import Base BaseFacts MBits MUtils MGraph MHeur MStack MRec MEnum MApi MExt MGen MAlign Spec SpecDec SpecGen FindTwo RowFacts LoadProps ExtFacts SearchBase IsoFacts SearchProps Samples ExtProps GenFacts.
From Coq Require Import Sorting.Sorted Sorting.Permutation.
Local Open Scope nat_scope.
Local Arguments Nat.sub : simpl never.
Local Arguments Nat.mul : simpl never.

(** ** The best matching *)
Lemma matching_length n1 n2 a b : matching n1 n2 a b -> length a <= n1 /\ length a <= n2.
Proof.
  intros (L & NA & NB & RA & RB). split.
  - rewrite <- (seq_length n1 0). apply NoDup_incl_length; auto. intros i I. apply in_seq. apply RA in I. lia.
  - rewrite L, <- (seq_length n2 0). apply NoDup_incl_length; auto. intros i I. apply in_seq. apply RB in I. lia.
Qed.

Lemma matching_clique n1 n2 p adj a b : (forall u v, neighbour p u v <-> adj u v) -> matching n1 n2 a b -> compatible p n2 a b ->
  exists d, clique (n1 * n2) adj d /\ length d = length a.
Proof.
  intros NB (L & NA & NB' & RA & RB) C. set (w := fun k => vid n2 (nth k a 0) (nth k b 0)).
  assert (RA' : forall k, k < length a -> nth k a 0 < n1) by (intros k K; apply RA, nth_In; auto).
  assert (RB' : forall k, k < length a -> nth k b 0 < n2) by (intros k K; apply RB, nth_In; lia).
  set (l := map w (seq 0 (length a))).
  assert (ND : NoDup l).
  { unfold l. apply (NoDup_nth _ 0). rewrite map_length, seq_length. intros k k' K K' EQ.
    rewrite !(nth_indep _ 0 (w 0)) in EQ by (rewrite map_length, seq_length; auto). rewrite !map_nth, !seq_nth in EQ by auto.
    unfold w in EQ. cbn [plus] in EQ. pose proof (RB' k K). pose proof (RB' k' K').
    apply vid_inj in EQ; try lia. apply (proj1 (NoDup_nth a 0) NA); auto; lia. }
  assert (IN : forall v, In v l <-> exists k, k < length a /\ v = w k).
  { intros v. unfold l. rewrite in_map_iff. split; [intros (k & <- & I); apply in_seq in I; exists k; split; auto; lia|].
    intros (k & K & ->). exists k. split; auto. apply in_seq. lia. }
  assert (RL : forall v, In v l -> 1 <= v <= n1 * n2).
  { intros v I. apply IN in I. destruct I as (k & K & ->). apply vid_range; auto. }
  exists (filter (fun v => existsb (Nat.eqb v) l) (seq 1 (n1 * n2))).
  assert (INF : forall v, In v (filter (fun v => existsb (Nat.eqb v) l) (seq 1 (n1 * n2))) <-> In v l).
  { intros v. rewrite filter_In, existsb_exists, in_seq. split.
    - intros (_ & x & I & X). apply Nat.eqb_eq in X. subst. auto.
    - intros I. pose proof (RL v I). split; [lia|]. exists v. split; auto. apply Nat.eqb_refl. }
  split; [split; [|split]|].
  - clear. generalize (seq 1 (n1 * n2)) (fun v => existsb (Nat.eqb v) l) (SetFacts.seq_sorted 1 (n1 * n2)). intros s f SS.
    induction SS as [|x s SS IH F]; cbn [filter]; [constructor|]. destruct (f x); auto. constructor; auto.
    rewrite Forall_forall in *. intros y I. apply filter_In in I. apply F. tauto.
  - intros v I. apply INF in I. auto.
  - intros u v I J N. apply INF, IN in I. apply INF, IN in J. destruct I as (k & K & ->), J as (k' & K' & ->).
    apply NB. apply C; auto.
  - transitivity (length l); [|unfold l; rewrite map_length; apply seq_length].
    apply Permutation_length. apply NoDup_Permutation; auto. apply NoDup_filter, seq_NoDup.
Qed.

Lemma corr_maximum n1 n2 p : corr_graph n1 n2 p -> edges_fit p -> storage_live p -> (exists u v, neighbour p u v) ->
  forall e ub heur cont, permutes e -> never_late e -> n1 <= ub \/ n2 <= ub ->
  ends_with (get_correspondence e p n2 1 ub heur true cont) (fun r => exists a b, snd r = Ret (a, b)
    /\ matching n1 n2 a b /\ compatible p n2 a b
    /\ forall a' b', matching n1 n2 a' b' -> compatible p n2 a' b' -> length a' <= length a).
Proof.
  intros CG HF LV NE e ub heur cont HP U HU. destruct (corr_made n1 n2 p CG HF) as (rows & P & M & NB).
  assert (HE : has_edge (adj_rows rows)) by (destruct NE as (u & v & N); exists u, v; apply NB; auto).
  assert (HU' : forall d, clique (n1 * n2) (adj_rows rows) d -> length d <= ub).
  { intros d D. destruct (clique_matching n1 n2 rows d P D) as (a & b & _ & L & MT & _). apply matching_length in MT. lia. }
  unfold get_correspondence. apply wp_bind.
  eapply wp_mono; [apply (fresh_max_only p _ _ e ub heur cont M HE LV HP U HU')|].
  intros [q' r] (c & X & C & MX). cbn [snd] in X. subst r. destruct (clique_matching n1 n2 rows c P C) as (a & b & D & L & MT & V).
  rewrite D. cbn [bind]. apply wp_ok. cbn [snd]. exists a, b. split; auto. split; auto. split; [eapply clique_compatible; eauto|].
  intros a' b' MT' C'. destruct (matching_clique n1 n2 p (adj_rows rows) a' b' NB MT' C') as (d & D' & L'). apply MX in D'. lia.
Qed.

(** ** C64, C65 *)
Lemma elements_length {E} (l : list E) idx xs : elements_at l idx xs -> length idx = length xs.
Proof. intros H. induction H; cbn; auto. Qed.

Section GenProps.
  Context {E1 E2 : Type}.
  Variables (S1 : gset E1) (S2 : gset E2) (d1 d2 : option metric) (sym1 sym2 : bool) (eps : Z) (srt : list pdist -> list pdist).
  Hypothesis Hs : sorts_dists srt.
  Hypothesis D2 : d1 <> None \/ d2 = None.
  Let new := gen_init S1 S2 d1 d2 sym1 sym2 eps.
  Let n1 := length (gs_elems S1).
  Let n2 := length (gs_elems S2).

  Lemma chosen_wanted : chosen1 new = (wanted S1 d1, declared d1 sym1) /\ chosen2 new = (wanted S2 d2, declared d2 sym2).
  Proof.
    unfold new, chosen1, chosen2, gen_init, wanted, declared. cbn [gg_d1 gg_d2 gg_S1 gg_S2 gg_sym1 gg_sym2].
    destruct d1, d2; auto. destruct D2; congruence.
  Qed.

  Section Given.
    Variables (f1 f2 : metric).
    Hypothesis W1 : wanted S1 d1 = Some f1.
    Hypothesis W2 : wanted S2 d2 = Some f2.
    Let s1 := wanted_set S1 d1 sym1 f1.
    Let s2 := wanted_set S2 d2 sym2 f2.
    Hypothesis HT : table_fits s2.

    Lemma gen_metric : gen_build_edges srt new = lift new (build_edges_metric_only srt new_pygraph s1 s2 eps).
    Proof. destruct chosen_wanted as (C1 & C2). rewrite W1 in C1. rewrite W2 in C2. exact (gen_build_eq srt new _ _ _ _ C1 C2). Qed.

    Lemma gen_both f : gen_build_with_condition srt new f false = lift new (build_edges srt new_pygraph s1 s2 eps f).
    Proof. destruct chosen_wanted as (C1 & C2). rewrite W1 in C1. rewrite W2 in C2. exact (gen_cond_eq srt new f _ _ _ _ C1 C2). Qed.

    Lemma lift_ret o g : lift new o = Ok (Ret g) -> o = Ok (Ret (gg_graph g)) /\ gg_S1 g = S1 /\ gg_S2 g = S2.
    Proof.
      unfold lift. intros E. apply bind_ok in E. destruct E as ([q|x] & E & H); [|discriminate]. injection H as <-. auto.
    Qed.

    Lemma gen_keeps g i i' j j' : honest s1 -> honest s2 -> gen_build_edges srt new = Ok (Ret g) -> edges_fit (gg_graph g) ->
      two s1 i i' -> two s2 j j' -> (Z.abs (f1 i i' - f2 j j') < eps)%Z ->
      neighbour (gg_graph g) (vid n2 i j) (vid n2 i' j').
    Proof.
      intros H1 H2 E HF T1 T2 D. rewrite gen_metric in E. apply lift_ret in E. destruct E as (E & _).
      exact (metric_keeps srt s1 s2 eps Hs HT _ _ i i' j j' H1 H2 E HF T1 T2 (or_introl D)).
    Qed.

    Lemma gen_adds g i i' j j' : (forall k l, f1 k l = f1 l k) -> (forall k l, f2 k l = f2 l k) ->
      gen_build_edges srt new = Ok (Ret g) -> edges_fit (gg_graph g) ->
      j < n2 -> j' < n2 -> neighbour (gg_graph g) (vid n2 i j) (vid n2 i' j') ->
      two s1 i i' /\ j <> j' /\ ((Z.abs (f1 i i' - f2 j j') <= eps)%Z \/ next_to s2 eps (f1 i i') (f2 j j')).
    Proof.
      intros Y1 Y2 E HF J J' N. rewrite gen_metric in E. apply lift_ret in E. destruct E as (E & _).
      exact (metric_adds srt s1 s2 eps Hs HT _ _ i i' j j' Y1 Y2 E HF J J' N).
    Qed.

    (** ** The searches *)
    Section Search.
      Hypothesis Y1 : forall k l, f1 k l = f1 l k.
      Hypothesis Y2 : forall k l, f2 k l = f2 l k.
      Variable g : gengraph E1 E2.

      Lemma near_of f p a b : build_edges srt new_pygraph s1 s2 eps f = Ok (Ret p) -> edges_fit p -> matching n1 n2 a b -> compatible p n2 a b ->
        near_matches f1 s2 eps a b /\ passed (declared d1 sym1) f a b.
      Proof.
        intros E HF (L & NA & NB & RA & RB) C. split.
        - intros k l K K' N. assert (J : nth k b 0 < n2) by (apply RB, nth_In; lia). assert (J' : nth l b 0 < n2) by (apply RB, nth_In; lia).
          apply (both_adds srt s1 s2 eps Hs HT f new_pygraph p (nth k a 0) (nth l a 0) (nth k b 0) (nth l b 0)); auto.
        - intros k l K K' N. assert (J : nth k b 0 < n2) by (apply RB, nth_In; lia). assert (J' : nth l b 0 < n2) by (apply RB, nth_In; lia).
          assert (KL : k <> l) by (intros ->; lia).
          destruct (both_obeys_r exact srt s1 s2 eps exact_rises Hs HT f new_pygraph p (nth k a 0) (nth l a 0) (nth k b 0) (nth l b 0) E HF J J' (C k l K K' KL)) as (F & F').
          change (m_sym s1) with (declared d1 sym1) in F'. destruct (declared d1 sym1); [left; apply F'; auto|]. destruct F; auto.
      Qed.

      Lemma close_compatible f p a b : build_edges srt new_pygraph s1 s2 eps f = Ok (Ret p) -> edges_fit p -> matching n1 n2 a b ->
        close_matches f1 f2 eps a b -> allowed (declared d1 sym1) f a b -> compatible p n2 a b.
      Proof.
        intros E HF (L & NA & NB & RA & RB) C F k l K K' N.
        assert (NAk : nth k a 0 <> nth l a 0) by (intros X; apply N, (proj1 (NoDup_nth a 0) NA); auto).
        assert (NBk : nth k b 0 <> nth l b 0) by (intros X; apply N, (proj1 (NoDup_nth b 0) NB); auto; lia).
        assert (T1 : two s1 (nth k a 0) (nth l a 0)) by (split; [|split; auto]; apply RA, nth_In; auto).
        assert (T2 : two s2 (nth k b 0) (nth l b 0)) by (split; [|split; auto]; apply RB, nth_In; lia).
        assert (F1 : declared d1 sym1 = false \/ nth k a 0 < nth l a 0 -> f (nth k a 0) (nth l a 0) (nth k b 0) (nth l b 0) = true) by (intros; apply F; auto).
        assert (F2 : declared d1 sym1 = true /\ nth l a 0 < nth k a 0 -> f (nth l a 0) (nth k a 0) (nth l b 0) (nth k b 0) = true) by (intros (_ & LT); apply F; auto).
        exact (both_keeps srt s1 s2 eps Hs HT f new_pygraph p _ _ _ _ (fun _ => Y1) (fun _ => Y2) E HF T1 T2 F1 F2 (or_introl (C k l K K' N))).
      Qed.

      Lemma format_ok q a b : gg_S1 q = S1 -> gg_S2 q = S2 -> matching n1 n2 a b ->
        exists xs ys, gen_format q (a, b) = Ret (xs, ys) /\ elements_at (gs_elems S1) a xs /\ elements_at (gs_elems S2) b ys.
      Proof.
        intros Q1 Q2 (L & NA & NB & RA & RB). unfold gen_format. cbn [fst snd]. rewrite Q1, Q2.
        destruct (pick_elems_ok (gs_elems S1) a RA) as (xs & X & FX). destruct (pick_elems_ok (gs_elems S2) b RB) as (ys & Y & FY).
        exists xs, ys. rewrite X, Y. auto.
      Qed.

      Lemma elements_max f p e ub heur cont : build_edges srt new_pygraph s1 s2 eps f = Ok (Ret p) ->
        gg_graph g = p -> gg_S1 g = S1 -> gg_S2 g = S2 ->
        edges_fit p -> storage_live p -> (exists u v, neighbour p u v) -> permutes e -> never_late e -> n1 <= ub \/ n2 <= ub ->
        ends_with (gen_get_elements e g 1 ub heur true cont) (fun r => exists xs ys a b, snd r = Ret (xs, ys)
          /\ elements_at (gs_elems S1) a xs /\ elements_at (gs_elems S2) b ys /\ matching n1 n2 a b
          /\ near_matches f1 s2 eps a b /\ passed (declared d1 sym1) f a b
          /\ forall a' b', matching n1 n2 a' b' -> close_matches f1 f2 eps a' b' -> allowed (declared d1 sym1) f a' b' -> length a' <= length a).
      Proof.
        intros E G1 G2 G3 HF LV NE HP U HU. unfold gen_get_elements, gen_get_indices. rewrite G1. unfold len2. rewrite G3.
        assert (CG : corr_graph n1 n2 p) by (apply (cg_both n1 n2 p exact srt s1 s2 eps f); auto; apply exact_rises).
        apply wp_bind. apply wp_bind. eapply wp_mono; [apply (corr_maximum n1 n2 p CG HF LV NE e ub heur cont HP U HU)|].
        intros [q r] (a & b & X & MT & CO & MX). cbn [snd] in X. subst r. apply wp_ok. apply wp_ok. cbn [snd].
        destruct (format_ok (with_graph g q) a b G2 G3 MT) as (xs & ys & FO & FX & FY). exists xs, ys, a, b.
        split; auto. split; auto. split; auto. split; auto. destruct (near_of f p a b E HF MT CO) as (NM & PA). split; auto. split; auto.
        intros a' b' MT' CM AL. apply (MX a' b'); auto. eapply close_compatible; eauto.
      Qed.

      Lemma search_metric e ub heur cont : gen_build_edges srt new = Ok (Ret g) ->
        edges_fit (gg_graph g) -> storage_live (gg_graph g) -> (exists u v, neighbour (gg_graph g) u v) ->
        permutes e -> never_late e -> n1 <= ub \/ n2 <= ub ->
        ends_with (gen_get_elements e g 1 ub heur true cont) (fun r => exists xs ys a b, snd r = Ret (xs, ys)
          /\ elements_at (gs_elems S1) a xs /\ elements_at (gs_elems S2) b ys /\ matching n1 n2 a b
          /\ near_matches f1 s2 eps a b
          /\ forall a' b', matching n1 n2 a' b' -> close_matches f1 f2 eps a' b' -> length a' <= length a).
      Proof.
        intros E HF LV NE HP U HU. rewrite gen_metric, metric_as_both in E. apply lift_ret in E. destruct E as (E & G2 & G3).
        eapply wp_mono; [apply (elements_max _ _ e ub heur cont E eq_refl G2 G3 HF LV NE HP U HU)|].
        intros r (xs & ys & a & b & R & X & Y & MT & NM & _ & MX). exists xs, ys, a, b. do 5 (split; auto).
        intros a' b' MT' CM. apply (MX a' b'); auto. intros k l K K' N S. reflexivity.
      Qed.

      Lemma search_both f e ub heur cont : gen_build_with_condition srt new f false = Ok (Ret g) ->
        edges_fit (gg_graph g) -> storage_live (gg_graph g) -> (exists u v, neighbour (gg_graph g) u v) ->
        permutes e -> never_late e -> n1 <= ub \/ n2 <= ub ->
        ends_with (gen_get_elements e g 1 ub heur true cont) (fun r => exists xs ys a b, snd r = Ret (xs, ys)
          /\ elements_at (gs_elems S1) a xs /\ elements_at (gs_elems S2) b ys /\ matching n1 n2 a b
          /\ near_matches f1 s2 eps a b /\ passed (declared d1 sym1) f a b
          /\ forall a' b', matching n1 n2 a' b' -> close_matches f1 f2 eps a' b' -> allowed (declared d1 sym1) f a' b' -> length a' <= length a).
      Proof.
        intros E HF LV NE HP U HU. rewrite gen_both in E. apply lift_ret in E. destruct E as (E & G2 & G3).
        apply (elements_max f _ e ub heur cont E eq_refl G2 G3 HF LV NE HP U HU).
      Qed.

      (** Any later search on the object, and all_correspondences. *)
      Lemma search_any f e lb ub heur dfs cont h : gen_build_with_condition srt new f false = Ok (Ret g) ->
        edges_fit (gg_graph g) -> storage_live (gg_graph g) -> (exists u v, neighbour (gg_graph g) u v) ->
        history (gg_graph g) h -> lawful e lb ->
        ends_with (gen_get_elements e (with_graph g h) lb ub heur dfs cont) (fun r =>
          match snd r with
          | Ret (xs, ys) => exists a b, elements_at (gs_elems S1) a xs /\ elements_at (gs_elems S2) b ys /\ matching n1 n2 a b
              /\ near_matches f1 s2 eps a b /\ passed (declared d1 sym1) f a b /\ lb <= length xs
          | Raise x => x = EBounds
          end).
      Proof.
        intros E HF LV NE H LA. rewrite gen_both in E. apply lift_ret in E. destruct E as (E & G2 & G3).
        assert (CG : corr_graph n1 n2 (gg_graph g)) by (apply (cg_both n1 n2 _ exact srt s1 s2 eps f); auto; apply exact_rises).
        unfold gen_get_elements, gen_get_indices. cbn [with_graph gg_graph]. unfold len2. cbn [with_graph gg_S2]. rewrite G3.
        apply wp_bind. apply wp_bind. eapply wp_mono; [apply (correspondences n1 n2 _ CG HF LV NE h e lb ub heur dfs cont H LA)|].
        intros [q [[a b]|x]] R; cbn [snd] in R; do 2 apply wp_ok; cbn [snd]; auto. destruct R as (MT & CO & LE).
        destruct (format_ok (with_graph (with_graph g h) q) a b G2 G3 MT) as (xs & ys & FO & FX & FY).
        rewrite FO. exists a, b. destruct (near_of f _ a b E HF MT CO) as (NM & PA). do 5 (split; auto).
        rewrite <- (elements_length _ _ _ FX). auto.
      Qed.

      Lemma enumerate_any f lr k i h q1 en1 l g2 en2 r : gen_build_with_condition srt new f false = Ok (Ret g) ->
        edges_fit (gg_graph g) -> storage_live (gg_graph g) -> (exists u v, neighbour (gg_graph g) u v) ->
        history (gg_graph g) h -> nexts i lr h (new_enum k) = Ok (q1, en1, l) -> length l = i ->
        gen_next_elements lr (with_graph g q1) en1 = Ok (g2, en2, r) ->
        match r with
        | Ret (xs, ys) => exists a b, elements_at (gs_elems S1) a xs /\ elements_at (gs_elems S2) b ys /\ matching n1 n2 a b
            /\ near_matches f1 s2 eps a b /\ passed (declared d1 sym1) f a b /\ length xs = k
        | Raise x => exists q2, next_clique lr q1 en1 = Ok (q2, en2, Raise x)
        end.
      Proof.
        intros E HF LV NE H N L X. rewrite gen_both in E. apply lift_ret in E. destruct E as (E & G2 & G3).
        assert (CG : corr_graph n1 n2 (gg_graph g)) by (apply (cg_both n1 n2 _ exact srt s1 s2 eps f); auto; apply exact_rises).
        unfold gen_next_elements, gen_next_indices in X. cbn [with_graph gg_graph] in X. unfold len2 in X. cbn [with_graph gg_S2] in X. rewrite G3 in X.
        apply bind_ok in X. destruct X as ([[g3 en3] r3] & X & X'). apply bind_ok in X. destruct X as ([[q2 en4] r4] & X & X0).
        injection X0 as <- <- <-. destruct r4 as [[a b]|x].
        - destruct (enumerated_correspondences n1 n2 _ CG HF LV NE h lr k i q1 en1 l q2 en4 a b H N L X) as (MT & CO & LE).
          destruct (format_ok (with_graph (with_graph g q1) q2) a b G2 G3 MT) as (xs & ys & FO & FX & FY).
          change (gg_S1 g) with (gg_S1 (with_graph (with_graph g q1) q2)) in X'. injection X' as _ _ <-.
          cbn in FO. cbn. rewrite FO. exists a, b. destruct (near_of f _ a b E HF MT CO) as (NM & PA). do 5 (split; auto).
          rewrite <- (elements_length _ _ _ FX). auto.
        - injection X' as _ <- <-. unfold next_correspondence in X. apply bind_ok in X. destruct X as ([[q5 en5] [c|y]] & X & X0).
          + exfalso. apply bind_ok in X0. destruct X0 as (z & Z & X0). injection X0 as -> -> ->.
            destruct (corr_made n1 n2 _ CG HF) as (rows & P & M & NB).
            assert (HE : has_edge (adj_rows rows)) by (destruct NE as (u & v & NE); exists u, v; apply NB; auto).
            pose proof (nexts_snoc _ _ _ _ _ _ _ _ _ _ N L X) as N'.
            destruct (enumerated_are_cliques _ _ _ M LV h lr k (S i) _ _ _ c HE H N') as (C1 & C2 & C3 & C4).
            { apply in_app_iff. right. left. auto. }
            assert (CL : clique (n1 * n2) (adj_rows rows) c) by (split; auto).
            destruct (clique_matching n1 n2 rows c P CL) as (a' & b' & D' & _). unfold n2 in D'. congruence.
          + injection X0 as -> -> ->. eauto.
      Qed.
    End Search.
  End Given.

  Lemma no_metric : (wanted S1 d1 = None /\ 2 <= n1) \/ (wanted S2 d2 = None /\ 2 <= n2 /\ (wanted S1 d1 <> None \/ n1 < 2)) ->
    gen_build_edges srt new = Ok (Raise ENoMetric) /\ forall f, gen_build_with_condition srt new f false = Ok (Raise ENoMetric).
  Proof.
    destruct chosen_wanted as (C1 & C2). intros [(W & L)|(W & L & W')].
    - apply gen_none1; auto. rewrite C1. auto.
    - apply gen_none2; auto; [|rewrite C2; auto]. rewrite C1. auto.
  Qed.
End GenProps.

(** use_cfunc_only: the metrics play no part. *)
Lemma gen_condition_only {E1 E2} srt (g0 g : gengraph E1 E2) f i i' j j' :
  gen_build_with_condition srt g0 f true = Ok (Ret g) -> edges_fit (gg_graph g) ->
  i < i' < length (gs_elems (gg_S1 g0)) -> j < length (gs_elems (gg_S2 g0)) -> j' < length (gs_elems (gg_S2 g0)) -> j <> j' ->
  (neighbour (gg_graph g) (vid (length (gs_elems (gg_S2 g0))) i j) (vid (length (gs_elems (gg_S2 g0))) i' j')
   <-> f i i' (Nat.min j j') (Nat.max j j') = true).
Proof.
  unfold gen_build_with_condition, gen_build_with_condition_r. intros E HF. apply bind_ok in E. destruct E as ([q|x] & E & X); [|discriminate]. injection X as <-.
  apply (cond_iff _ _ _ f _ i i' j j' E HF).
Qed.
