(** GenRound: the generic wrappers with the ends of the interval rounded to nearest (C65). *)
From Verif Require Import Base BaseFacts MBits MUtils MGraph MHeur MStack MRec MEnum MApi MExt MPy MGen MAlign Spec SpecGen SpecRound ExtFacts SearchBase IsoFacts SearchProps ExtProps GenFacts GenProps RoundFacts RoundProps.
Local Open Scope nat_scope.

Section GenRound.
  Context {E1 E2 : Type}.
  Variables (rnd : Z -> Z) (S1 : gset E1) (S2 : gset E2) (d1 d2 : option metric) (sym1 sym2 : bool) (eps : Z) (srt : list pdist -> list pdist).
  Hypothesis Hn : nearest rnd.
  Hypothesis Hs : sorts_dists srt.
  Hypothesis D2 : d1 <> None \/ d2 = None.
  Hypothesis Pe : (0 <= eps)%Z.
  Hypothesis De : double eps.
  Let new := gen_init S1 S2 d1 d2 sym1 sym2 eps.
  Let n1 := length (gs_elems S1).
  Let n2 := length (gs_elems S2).
  Variables (f1 f2 : metric).
  Hypothesis W1 : wanted S1 d1 = Some f1.
  Hypothesis W2 : wanted S2 d2 = Some f2.
  Let s1 := wanted_set S1 d1 sym1 f1.
  Let s2 := wanted_set S2 d2 sym2 f2.
  Hypothesis HT : table_fits s2.
  Hypothesis M1 : measured s1.
  Hypothesis M2 : measured s2.
  Hypothesis Y1 : forall k l, f1 k l = f1 l k.
  Hypothesis Y2 : forall k l, f2 k l = f2 l k.

  Lemma gen_metric_r : gen_build_edges_r rnd srt new = lift new (build_edges_metric_only_r rnd srt new_pygraph s1 s2 eps).
  Proof.
    destruct (chosen_wanted S1 S2 d1 d2 sym1 sym2 eps D2) as (C1 & C2). rewrite W1 in C1. rewrite W2 in C2.
    exact (gen_build_eq_r rnd srt new _ _ _ _ C1 C2).
  Qed.

  Lemma gen_both_r f : gen_build_with_condition_r rnd srt new f false = lift new (build_edges_r rnd srt new_pygraph s1 s2 eps f).
  Proof.
    destruct (chosen_wanted S1 S2 d1 d2 sym1 sym2 eps D2) as (C1 & C2). rewrite W1 in C1. rewrite W2 in C2.
    exact (gen_cond_eq_r rnd srt new f _ _ _ _ C1 C2).
  Qed.

  Lemma near_of_r f p a b : build_edges_r rnd srt new_pygraph s1 s2 eps f = Ok (Ret p) -> edges_fit p -> matching n1 n2 a b -> compatible p n2 a b ->
    about_matches f1 s2 eps a b /\ passed (declared d1 sym1) f a b.
  Proof.
    intros E HF (L & NA & NB & RA & RB) C. split.
    - intros k l K K' N. assert (J : nth k b 0 < n2) by (apply RB, nth_In; lia). assert (J' : nth l b 0 < n2) by (apply RB, nth_In; lia).
      exact (proj2 (proj2 (round_adds rnd srt s1 s2 eps Hn Hs HT Pe f new_pygraph p (nth k a 0) (nth l a 0) (nth k b 0) (nth l b 0)
               M1 M2 De Y1 Y2 E HF J J' (C k l K K' N)))).
    - intros k l K K' N. assert (J : nth k b 0 < n2) by (apply RB, nth_In; lia). assert (J' : nth l b 0 < n2) by (apply RB, nth_In; lia).
      assert (KL : k <> l) by (intros ->; lia).
      destruct (both_obeys_r rnd srt s1 s2 eps (round_rises rnd Hn) Hs HT f new_pygraph p (nth k a 0) (nth l a 0) (nth k b 0) (nth l b 0) E HF J J' (C k l K K' KL)) as (F & F').
      change (m_sym s1) with (declared d1 sym1) in F'. destruct (declared d1 sym1); [left; apply F'; auto|]. destruct F; auto.
  Qed.

  Lemma inside_compatible f p a b : build_edges_r rnd srt new_pygraph s1 s2 eps f = Ok (Ret p) -> edges_fit p -> matching n1 n2 a b ->
    inside_matches f1 f2 eps a b -> allowed (declared d1 sym1) f a b -> compatible p n2 a b.
  Proof.
    intros E HF (L & NA & NB & RA & RB) C F k l K K' N.
    assert (NAk : nth k a 0 <> nth l a 0) by (intros X; apply N, (proj1 (NoDup_nth a 0) NA); auto).
    assert (NBk : nth k b 0 <> nth l b 0) by (intros X; apply N, (proj1 (NoDup_nth b 0) NB); auto; lia).
    assert (T1 : two s1 (nth k a 0) (nth l a 0)) by (split; [|split; auto]; apply RA, nth_In; auto).
    assert (T2 : two s2 (nth k b 0) (nth l b 0)) by (split; [|split; auto]; apply RB, nth_In; lia).
    assert (F1 : declared d1 sym1 = false \/ nth k a 0 < nth l a 0 -> f (nth k a 0) (nth l a 0) (nth k b 0) (nth l b 0) = true) by (intros; apply F; auto).
    assert (F2 : declared d1 sym1 = true /\ nth l a 0 < nth k a 0 -> f (nth l a 0) (nth k a 0) (nth l b 0) (nth k b 0) = true) by (intros (_ & LT); apply F; auto).
    exact (round_keeps rnd srt s1 s2 eps Hn Hs HT Pe f new_pygraph p _ _ _ _ M1 M2 (fun _ => Y1) (fun _ => Y2) E HF T1 T2 F1 F2 (or_intror (C k l K K' N))).
  Qed.

  Variable g : gengraph E1 E2.

  Lemma elements_max_r f p e ub heur cont : build_edges_r rnd srt new_pygraph s1 s2 eps f = Ok (Ret p) ->
    gg_graph g = p -> gg_S1 g = S1 -> gg_S2 g = S2 ->
    edges_fit p -> storage_live p -> (exists u v, neighbour p u v) -> permutes e -> never_late e -> n1 <= ub \/ n2 <= ub ->
    ends_with (gen_get_elements e g 1 ub heur true cont) (fun r => exists xs ys a b, snd r = Ret (xs, ys)
      /\ elements_at (gs_elems S1) a xs /\ elements_at (gs_elems S2) b ys /\ matching n1 n2 a b
      /\ about_matches f1 s2 eps a b /\ passed (declared d1 sym1) f a b
      /\ forall a' b', matching n1 n2 a' b' -> inside_matches f1 f2 eps a' b' -> allowed (declared d1 sym1) f a' b' -> length a' <= length a).
  Proof.
    intros E G1 G2 G3 HF LV NE HP U HU. unfold gen_get_elements, gen_get_indices. rewrite G1. unfold len2. rewrite G3.
    assert (CG : corr_graph n1 n2 p) by (apply (cg_both n1 n2 p rnd srt s1 s2 eps f); auto; apply round_rises; auto).
    apply wp_bind. apply wp_bind. eapply wp_mono; [apply (corr_maximum n1 n2 p CG HF LV NE e ub heur cont HP U HU)|].
    intros [q r] (a & b & X & MT & CO & MX). cbn [snd] in X. subst r. apply wp_ok. apply wp_ok. cbn [snd].
    destruct (format_ok S1 S2 (with_graph g q) a b G2 G3 MT) as (xs & ys & FO & FX & FY). exists xs, ys, a, b.
    split; auto. split; auto. split; auto. split; auto. destruct (near_of_r f p a b E HF MT CO) as (NM & PA). split; auto. split; auto.
    intros a' b' MT' CM AL. apply (MX a' b'); auto. eapply inside_compatible; eauto.
  Qed.

  Lemma search_metric_r e ub heur cont : gen_build_edges_r rnd srt new = Ok (Ret g) ->
    edges_fit (gg_graph g) -> storage_live (gg_graph g) -> (exists u v, neighbour (gg_graph g) u v) ->
    permutes e -> never_late e -> n1 <= ub \/ n2 <= ub ->
    ends_with (gen_get_elements e g 1 ub heur true cont) (fun r => exists xs ys a b, snd r = Ret (xs, ys)
      /\ elements_at (gs_elems S1) a xs /\ elements_at (gs_elems S2) b ys /\ matching n1 n2 a b
      /\ about_matches f1 s2 eps a b
      /\ forall a' b', matching n1 n2 a' b' -> inside_matches f1 f2 eps a' b' -> length a' <= length a).
  Proof.
    intros E HF LV NE HP U HU. rewrite gen_metric_r, metric_as_both_r in E. apply lift_ret in E. destruct E as (E & G2 & G3).
    eapply wp_mono; [apply (elements_max_r _ _ e ub heur cont E eq_refl G2 G3 HF LV NE HP U HU)|].
    intros r (xs & ys & a & b & R & X & Y & MT & NM & _ & MX). exists xs, ys, a, b. do 5 (split; auto).
    intros a' b' MT' CM. apply (MX a' b'); auto. intros k l K K' N S. reflexivity.
  Qed.

  Lemma search_both_r f e ub heur cont : gen_build_with_condition_r rnd srt new f false = Ok (Ret g) ->
    edges_fit (gg_graph g) -> storage_live (gg_graph g) -> (exists u v, neighbour (gg_graph g) u v) ->
    permutes e -> never_late e -> n1 <= ub \/ n2 <= ub ->
    ends_with (gen_get_elements e g 1 ub heur true cont) (fun r => exists xs ys a b, snd r = Ret (xs, ys)
      /\ elements_at (gs_elems S1) a xs /\ elements_at (gs_elems S2) b ys /\ matching n1 n2 a b
      /\ about_matches f1 s2 eps a b /\ passed (declared d1 sym1) f a b
      /\ forall a' b', matching n1 n2 a' b' -> inside_matches f1 f2 eps a' b' -> allowed (declared d1 sym1) f a' b' -> length a' <= length a).
  Proof.
    intros E HF LV NE HP U HU. rewrite gen_both_r in E. apply lift_ret in E. destruct E as (E & G2 & G3).
    apply (elements_max_r f _ e ub heur cont E eq_refl G2 G3 HF LV NE HP U HU).
  Qed.

  (** Any later search on the object *)
  Lemma search_any_r f e lb ub heur dfs cont h : gen_build_with_condition_r rnd srt new f false = Ok (Ret g) ->
    edges_fit (gg_graph g) -> storage_live (gg_graph g) -> (exists u v, neighbour (gg_graph g) u v) ->
    history (gg_graph g) h -> lawful e lb ->
    ends_with (gen_get_elements e (with_graph g h) lb ub heur dfs cont) (fun r =>
      match snd r with
      | Ret (xs, ys) => exists a b, elements_at (gs_elems S1) a xs /\ elements_at (gs_elems S2) b ys /\ matching n1 n2 a b
          /\ about_matches f1 s2 eps a b /\ passed (declared d1 sym1) f a b /\ lb <= length xs
      | Raise x => x = EBounds
      end).
  Proof.
    intros E HF LV NE H LA. rewrite gen_both_r in E. apply lift_ret in E. destruct E as (E & G2 & G3).
    assert (CG : corr_graph n1 n2 (gg_graph g)) by (apply (cg_both n1 n2 _ rnd srt s1 s2 eps f); auto; apply round_rises; auto).
    unfold gen_get_elements, gen_get_indices. cbn [with_graph gg_graph]. unfold len2. cbn [with_graph gg_S2]. rewrite G3.
    apply wp_bind. apply wp_bind. eapply wp_mono; [apply (correspondences n1 n2 _ CG HF LV NE h e lb ub heur dfs cont H LA)|].
    intros [q [[a b]|x]] R; cbn [snd] in R; do 2 apply wp_ok; cbn [snd]; auto. destruct R as (MT & CO & LE).
    destruct (format_ok S1 S2 (with_graph (with_graph g h) q) a b G2 G3 MT) as (xs & ys & FO & FX & FY).
    rewrite FO. exists a, b. destruct (near_of_r f _ a b E HF MT CO) as (NM & PA). do 5 (split; auto).
    rewrite <- (elements_length _ _ _ FX). auto.
  Qed.
End GenRound.
