(** CorrCalls: the statements of ExtProps and GenProps about iterators, for the iterator that all_correspondences returns (C42, C65). *)
From Verif Require Import Base MUtils MGraph MEnum MApi MExt MGen MCorr Spec SpecDec SpecGen Samples ExtProps GenProps.
Local Open Scope nat_scope.

Lemma all_correspondences_new p n1 n2 k en : all_correspondences p n1 n2 k = Ret en -> en = new_enum k.
Proof. unfold all_correspondences. destruct (loaded p); congruence. Qed.

Lemma listed_correspondences n1 n2 p : corr_graph n1 n2 p -> edges_fit p -> storage_live p -> (exists u v, neighbour p u v) ->
  forall q lr k i en0 q1 en1 l q2 en2 a b, history p q -> all_correspondences q n1 n2 k = Ret en0 ->
  nexts i lr q en0 = Ok (q1, en1, l) -> length l = i -> next_correspondence lr n2 q1 en1 = Ok (q2, en2, Ret (a, b)) ->
  matching n1 n2 a b /\ compatible p n2 a b /\ length a = k.
Proof.
  intros CG HF LV NE q lr k i en0 q1 en1 l q2 en2 a b H A. apply all_correspondences_new in A. subst en0.
  apply (enumerated_correspondences n1 n2 p CG HF LV NE); auto.
Qed.

Lemma listed_any E1 E2 (S1 : gset E1) (S2 : gset E2) d1 d2 sym1 sym2 eps srt : sorts_dists srt -> d1 <> None \/ d2 = None ->
  forall f1 f2, wanted S1 d1 = Some f1 -> wanted S2 d2 = Some f2 -> table_fits (wanted_set S2 d2 sym2 f2) ->
  (forall k l, f1 k l = f1 l k) -> (forall k l, f2 k l = f2 l k) ->
  forall g f lr k i h en0 q1 en1 l g2 en2 r, gen_build_with_condition srt (gen_init S1 S2 d1 d2 sym1 sym2 eps) f false = Ok (Ret g) ->
  edges_fit (gg_graph g) -> storage_live (gg_graph g) -> (exists u v, neighbour (gg_graph g) u v) ->
  history (gg_graph g) h -> gen_all_correspondences (with_graph g h) k = Ret en0 -> nexts i lr h en0 = Ok (q1, en1, l) -> length l = i ->
  gen_next_elements lr (with_graph g q1) en1 = Ok (g2, en2, r) ->
  match r with
  | Ret (xs, ys) => exists a b, elements_at (gs_elems S1) a xs /\ elements_at (gs_elems S2) b ys
      /\ matching (length (gs_elems S1)) (length (gs_elems S2)) a b
      /\ near_matches f1 (wanted_set S2 d2 sym2 f2) eps a b /\ passed (declared d1 sym1) f a b /\ length xs = k
  | Raise x => exists q2, next_clique lr q1 en1 = Ok (q2, en2, Raise x)
  end.
Proof.
  intros Hs D2 f1 f2 W1 W2 HT Y1 Y2 g f lr k i h en0 q1 en1 l g2 en2 r B HF LV NE H A. unfold gen_all_correspondences in A. apply all_correspondences_new in A. subst en0. intros N.
  intros L X. exact (enumerate_any S1 S2 d1 d2 sym1 sym2 eps srt Hs D2 f1 f2 W1 W2 HT Y1 Y2 g f lr k i h q1 en1 l g2 en2 r B HF LV NE H N L X).
Qed.
