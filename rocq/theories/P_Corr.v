(** P_Corr: all_correspondences (C90). *)
From Verif Require Import Base MBits MUtils MGraph MHeur MStack MRec MEnum MApi MExt MGen MCorr Spec SpecDec SpecGen SpecCorr SearchProps Samples ExtFacts ExtProps ExtSamples GenSamples CorrFacts CorrSamples.
From Coq Require Import Sorting.Sorted.
Local Open Scope nat_scope.

(** * C90: the same three points in both sets. get_correspondence matches each with itself; all_correspondences(3) is empty. *)
Theorem C90_identity_missing_refuted : exists srt (S1 S2 : gset nat) d eps g en g' en' g'' xs ys, sorts_dists srt /\ (forall k l, d k l = d l k)
  /\ gen_build_edges srt (gen_init S1 S2 (Some d) (Some d) true true eps) = Ok (Ret g) /\ edges_fit (gg_graph g) /\ storage_live (gg_graph g)
  /\ matching 3 3 [0; 1; 2] [0; 1; 2] /\ close_matches d d eps [0; 1; 2] [0; 1; 2]
  /\ gen_all_correspondences g 3 = Ret en /\ gen_drain 50 true g en = Ok (g', en', Ret [])
  /\ gen_get_elements (run_env None) g 1 DEFAULT_UB true true false = Ok (g'', Ret (xs, ys)) /\ length xs = 3.
Proof.
  exists pd_sort, names3, (mkGS [7; 8; 9] None), pos3, 1%Z, thriceg, (new_enum 3), (fst (drained true thriceg 3)), (snd (drained true thriceg 3)),
    thrice_max, [100; 101; 102], [7; 8; 9].
  split; [apply pd_sort_sorts|]. split; [intros; apply line_sym|]. split; [exact thrice_eq|]. split; [vm_compute; reflexivity|].
  split; [apply liveb_sound; vm_compute; reflexivity|].
  split; [split; [reflexivity|]; split; [|split; [|split]]; try (repeat constructor; cbn; lia); cbn; intros ? H; lia|].
  split; [intros k l _ _ _; rewrite Z.sub_diag; reflexivity|]. split; [vm_compute; reflexivity|]. split; [exact thrice_3|]. split; [exact thrice_id|reflexivity].
Qed.
Print Assumptions C90_identity_missing_refuted.

(** Whatever the graphs: IsoGraph.all_correspondences raises TypeError, also when there are subgraphs to be found. *)
Theorem C90_isograph_refuted : (forall p s1 s2 k, iso_all_correspondences p (OGraph s1) (OGraph s2) k = Raise ETypeError)
  /\ exists s1 s2 rows1 rows2 q, made s1 4 (adj_rows rows1) /\ made s2 3 (adj_rows rows2) /\ build_edges_for_iso new_pygraph s1 s2 = Ok (Ret q)
    /\ edges_fit q /\ storage_live q /\ embedding 4 (adj_rows rows1) 3 (adj_rows rows2) [2; 3; 4] [1; 2; 3].
Proof.
  split; [reflexivity|]. exists tri4, tri3, [(2, 3); (3, 4); (2, 4)], [(1, 2); (2, 3); (1, 3)], tris.
  split; [apply made_of; [reflexivity|vm_compute; reflexivity]|]. split; [apply made_of; [reflexivity|vm_compute; reflexivity]|].
  split; [vm_compute; reflexivity|]. split; [vm_compute; reflexivity|]. split; [apply liveb_sound; vm_compute; reflexivity|].
  split; [reflexivity|]. split; [repeat constructor; cbn; lia|]. split; [repeat constructor; cbn; lia|].
  split; [cbn; intros x H; lia|]. split; [cbn; intros x H; lia|].
  intros [|[|[|k]]] [|[|[|l]]] K L; cbn [length] in K, L; try lia; unfold adj_rows; cbn; intros (H & _); try lia; split; auto; lia.
Qed.
Print Assumptions C90_isograph_refuted.

(** Full claim: list(all_correspondences(k)) contains every set of k pairwise compatible matches exactly once. Missing: those that
    contain the match of the first elements, unless another of their matches is compatible with fewer matches than that one.
    Each correspondence is listed in the order of the first set. *)
Theorem C90_complete_partial : forall n1 n2 p, corr_graph n1 n2 p -> edges_fit p -> storage_live p ->
  forall lr k en, 2 <= k -> all_correspondences p n1 n2 k = Ret en ->
  exists q' en' l, (forall fuel, length l < fuel -> corr_drain fuel lr n2 p en = Ok (q', en', Ret l)) /\ NoDup l
    /\ forall a b, In (a, b) l <-> matching n1 n2 a b /\ compatible p n2 a b /\ length a = k /\ StronglySorted lt a
         /\ ~ first_match_first p n2 a b.
Proof. exact correspondences_listed. Qed.
Print Assumptions C90_complete_partial.

(** The same after calls that no clock or upper bound cuts short. *)
Theorem C90_after_calls_partial : forall n1 n2 p, corr_graph n1 n2 p -> edges_fit p -> storage_live p ->
  forall q lr k en, (exists u v, neighbour p u v) -> unhurried (n1 * n2) (neighbour p) p q -> 2 <= k -> all_correspondences q n1 n2 k = Ret en ->
  exists q' en' l, (forall fuel, length l < fuel -> corr_drain fuel lr n2 q en = Ok (q', en', Ret l)) /\ NoDup l
    /\ forall a b, In (a, b) l <-> matching n1 n2 a b /\ compatible p n2 a b /\ length a = k /\ StronglySorted lt a
         /\ ~ first_match_first p n2 a b.
Proof. exact correspondences_listed_later. Qed.
Print Assumptions C90_after_calls_partial.

(** Correspondences of size 1: all matches, in order. *)
Theorem C90_single_matches : forall n1 n2 p, corr_graph n1 n2 p -> edges_fit p -> storage_live p ->
  forall lr en, all_correspondences p n1 n2 1 = Ret en ->
  exists q' en' l, (forall fuel, length l < fuel -> corr_drain fuel lr n2 p en = Ok (q', en', Ret l))
    /\ l = map (fun v => ([v / n2], [v mod n2])) (seq 0 (n1 * n2)).
Proof. exact single_matches. Qed.
Print Assumptions C90_single_matches.

(** From the metrics and the condition to the elements returned with return_indices=False. *)
Theorem C90_elements_partial : forall E1 E2 (S1 : gset E1) (S2 : gset E2) d1 d2 sym1 sym2 eps srt, sorts_dists srt ->
  d1 <> None \/ d2 = None ->
  forall f1 f2, wanted S1 d1 = Some f1 -> wanted S2 d2 = Some f2 -> table_fits (wanted_set S2 d2 sym2 f2) ->
  (forall k l, f1 k l = f1 l k) -> (forall k l, f2 k l = f2 l k) ->
  forall g f lr k en, gen_build_with_condition srt (gen_init S1 S2 d1 d2 sym1 sym2 eps) f false = Ok (Ret g) ->
  edges_fit (gg_graph g) -> storage_live (gg_graph g) -> 2 <= k -> gen_all_correspondences g k = Ret en ->
  exists g' en' l out, (forall fuel, length out < fuel -> gen_drain fuel lr g en = Ok (g', en', Ret out))
    /\ Forall2 (fun ab xy => elements_at (gs_elems S1) (fst ab) (fst xy) /\ elements_at (gs_elems S2) (snd ab) (snd xy)) l out
    /\ NoDup l
    /\ (forall a b, In (a, b) l -> matching (length (gs_elems S1)) (length (gs_elems S2)) a b
          /\ near_matches f1 (wanted_set S2 d2 sym2 f2) eps a b /\ passed (declared d1 sym1) f a b /\ length a = k /\ StronglySorted lt a)
    /\ (forall a b, matching (length (gs_elems S1)) (length (gs_elems S2)) a b -> close_matches f1 f2 eps a b ->
          allowed (declared d1 sym1) f a b -> length a = k -> StronglySorted lt a ->
          ~ first_match_first (gg_graph g) (length (gs_elems S2)) a b -> In (a, b) l).
Proof. exact @elements_listed. Qed.
Print Assumptions C90_elements_partial.

(** IsoGraph: the method of the base class, called with the numbers of vertices, lists the embeddings (vertices counted from 0). *)
Theorem C90_embeddings_partial : forall s1 s2 q n1 n2 adj1 adj2, made s1 n1 adj1 -> made s2 n2 adj2 ->
  build_edges_for_iso new_pygraph s1 s2 = Ok (Ret q) -> edges_fit q -> storage_live q ->
  forall lr k en, 2 <= k -> all_correspondences q (p_nvert s1) (p_nvert s2) k = Ret en ->
  exists q' en' l, (forall fuel, length l < fuel -> corr_drain fuel lr (p_nvert s2) q en = Ok (q', en', Ret l)) /\ NoDup l
    /\ forall a b, In (a, b) l <-> embedding n1 adj1 n2 adj2 (map S a) (map S b) /\ length a = k /\ StronglySorted lt a
         /\ ~ first_match_first q n2 a b.
Proof. exact embeddings_listed. Qed.
Print Assumptions C90_embeddings_partial.

Example C90_example : corr_graph 4 3 tris /\ edges_fit tris /\ storage_live tris /\ all_correspondences tris 4 3 3 = Ret (new_enum 3)
  /\ corr_drain 50 true 3 tris (new_enum 3) = Ok (fst (cdrained true 3 tris 3), snd (cdrained true 3 tris 3),
       Ret [([1; 2; 3], [0; 1; 2]); ([1; 2; 3], [0; 2; 1]); ([1; 2; 3], [1; 0; 2]); ([1; 2; 3], [1; 2; 0]); ([1; 2; 3], [2; 0; 1]); ([1; 2; 3], [2; 1; 0])]).
Proof.
  split; [eapply (cg_iso 4 3 tris tri4 tri3); [apply made_of; [reflexivity|vm_compute; reflexivity]|apply made_of; [reflexivity|vm_compute; reflexivity]|vm_compute; reflexivity]|].
  split; [vm_compute; reflexivity|]. split; [apply liveb_sound; vm_compute; reflexivity|]. split; [vm_compute; reflexivity|exact tris_3].
Qed.

Example C90_elements_example : gen_build_with_condition pd_sort gline0 no1 false = Ok (Ret gcond) /\ edges_fit (gg_graph gcond)
  /\ storage_live (gg_graph gcond) /\ gen_all_correspondences gcond 2 = Ret (new_enum 2)
  /\ gen_drain 50 true gcond (new_enum 2)
     = Ok (fst (drained true gcond 2), snd (drained true gcond 2), Ret [([100; 101], [9; 10]); ([100; 101], [10; 9])]).
Proof.
  split; [exact gcond_eq|]. split; [vm_compute; reflexivity|]. split; [apply liveb_sound; vm_compute; reflexivity|].
  split; [vm_compute; reflexivity|exact gcond_2].
Qed.
