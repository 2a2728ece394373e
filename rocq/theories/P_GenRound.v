(** P_GenRound: the elements returned when the ends of the interval are rounded (C93). *)
From Verif Require Import Base BaseFacts MBits MUtils MGraph MHeur MStack MRec MEnum MApi MExt MPy MGen MAlign Spec SpecDec SpecGen SpecRound ExtSamples ExtProps SearchBase Samples RoundFacts RoundSamples GenSamples GenRound GenRoundSamples SearchProps ExtSamples.
Local Open Scope nat_scope.

(** * C93: three names at distance 10 and three at distance 9.9, epsilon 0.1 (in the same unit): all can be matched, two are. *)
Theorem C93_smaller_refuted : exists rnd srt (S1 S2 : gset nat) f1 f2 eps g e g' xs ys a' b',
  nearest rnd /\ sorts_dists srt /\ (0 < eps)%Z /\ double eps
  /\ measured (wanted_set S1 (Some f1) true f1) /\ measured (wanted_set S2 (Some f2) true f2) /\ table_fits (wanted_set S2 (Some f2) true f2)
  /\ (forall k l, f1 k l = f1 l k) /\ (forall k l, f2 k l = f2 l k)
  /\ gen_build_edges_r rnd srt (gen_init S1 S2 (Some f1) (Some f2) true true eps) = Ok (Ret g)
  /\ permutes e /\ never_late e
  /\ gen_get_elements e g 1 DEFAULT_UB true true false = Ok (g', Ret (xs, ys))
  /\ matching (length (gs_elems S1)) (length (gs_elems S2)) a' b' /\ close_matches f1 f2 eps a' b' /\ length xs < length a'.
Proof.
  exists half_even, pd_sort, names3, names3', (apart s10), (apart s9_9), s0_1, far, (run_env None). eexists. eexists. eexists. exists [0; 1; 2], [0; 1; 2].
  split; [apply half_even_nearest|]. split; [apply pd_sort_sorts|]. split; [vm_compute; reflexivity|]. split; [apply s0_1_double|].
  split; [apply apart_measured; [vm_compute; discriminate|apply s10_double]|]. split; [apply apart_measured; [vm_compute; discriminate|apply s9_9_double]|].
  split; [vm_compute; reflexivity|]. split; [apply apart_sym|]. split; [apply apart_sym|]. split; [exact far_eq|].
  split; [apply run_env_sorts|]. split; [apply untimed_never_late; reflexivity|]. split; [vm_compute; reflexivity|].
  split; [split; [reflexivity|]; split; [repeat constructor; cbn; lia|]; split; [repeat constructor; cbn; lia|]; split; intros i; cbn; lia|].
  split; [|cbn; lia]. intros k l K L N. cbn [length] in K, L.
  do 3 (destruct k as [|k]; [do 3 (destruct l as [|l]; [first [congruence|vm_compute; reflexivity]|]); lia|]). lia.
Qed.
Print Assumptions C93_smaller_refuted.

(** Full claim: get_correspondence returns matches at distances within epsilon, and no matching at distances closer than epsilon is
    larger. What holds: within epsilon up to rounding or next to the interval, and as many as any matching whose distances are well
    inside the interval. *)
Theorem C93_elements_partial : forall E1 E2 rnd (S1 : gset E1) (S2 : gset E2) d1 d2 sym1 sym2 eps srt, nearest rnd -> sorts_dists srt ->
  d1 <> None \/ d2 = None -> (0 <= eps)%Z -> double eps ->
  forall f1 f2, wanted S1 d1 = Some f1 -> wanted S2 d2 = Some f2 -> table_fits (wanted_set S2 d2 sym2 f2) ->
  measured (wanted_set S1 d1 sym1 f1) -> measured (wanted_set S2 d2 sym2 f2) ->
  (forall k l, f1 k l = f1 l k) -> (forall k l, f2 k l = f2 l k) ->
  forall g e ub heur cont, gen_build_edges_r rnd srt (gen_init S1 S2 d1 d2 sym1 sym2 eps) = Ok (Ret g) ->
  edges_fit (gg_graph g) -> storage_live (gg_graph g) -> (exists u v, neighbour (gg_graph g) u v) ->
  permutes e -> never_late e -> length (gs_elems S1) <= ub \/ length (gs_elems S2) <= ub ->
  ends_with (gen_get_elements e g 1 ub heur true cont) (fun r => exists xs ys a b, snd r = Ret (xs, ys)
    /\ elements_at (gs_elems S1) a xs /\ elements_at (gs_elems S2) b ys /\ matching (length (gs_elems S1)) (length (gs_elems S2)) a b
    /\ about_matches f1 (wanted_set S2 d2 sym2 f2) eps a b
    /\ forall a' b', matching (length (gs_elems S1)) (length (gs_elems S2)) a' b' -> inside_matches f1 f2 eps a' b' -> length a' <= length a).
Proof. exact @search_metric_r. Qed.
Print Assumptions C93_elements_partial.

Theorem C93_elements_with_condition_partial : forall E1 E2 rnd (S1 : gset E1) (S2 : gset E2) d1 d2 sym1 sym2 eps srt, nearest rnd -> sorts_dists srt ->
  d1 <> None \/ d2 = None -> (0 <= eps)%Z -> double eps ->
  forall f1 f2, wanted S1 d1 = Some f1 -> wanted S2 d2 = Some f2 -> table_fits (wanted_set S2 d2 sym2 f2) ->
  measured (wanted_set S1 d1 sym1 f1) -> measured (wanted_set S2 d2 sym2 f2) ->
  (forall k l, f1 k l = f1 l k) -> (forall k l, f2 k l = f2 l k) ->
  forall g f e ub heur cont, gen_build_with_condition_r rnd srt (gen_init S1 S2 d1 d2 sym1 sym2 eps) f false = Ok (Ret g) ->
  edges_fit (gg_graph g) -> storage_live (gg_graph g) -> (exists u v, neighbour (gg_graph g) u v) ->
  permutes e -> never_late e -> length (gs_elems S1) <= ub \/ length (gs_elems S2) <= ub ->
  ends_with (gen_get_elements e g 1 ub heur true cont) (fun r => exists xs ys a b, snd r = Ret (xs, ys)
    /\ elements_at (gs_elems S1) a xs /\ elements_at (gs_elems S2) b ys /\ matching (length (gs_elems S1)) (length (gs_elems S2)) a b
    /\ about_matches f1 (wanted_set S2 d2 sym2 f2) eps a b /\ passed (declared d1 sym1) f a b
    /\ forall a' b', matching (length (gs_elems S1)) (length (gs_elems S2)) a' b' -> inside_matches f1 f2 eps a' b' ->
         allowed (declared d1 sym1) f a' b' -> length a' <= length a).
Proof. exact @search_both_r. Qed.
Print Assumptions C93_elements_with_condition_partial.

(** Any search on the object after other searches, with any bounds. *)
Theorem C93_later_searches : forall E1 E2 rnd (S1 : gset E1) (S2 : gset E2) d1 d2 sym1 sym2 eps srt, nearest rnd -> sorts_dists srt ->
  d1 <> None \/ d2 = None -> (0 <= eps)%Z -> double eps ->
  forall f1 f2, wanted S1 d1 = Some f1 -> wanted S2 d2 = Some f2 -> table_fits (wanted_set S2 d2 sym2 f2) ->
  measured (wanted_set S1 d1 sym1 f1) -> measured (wanted_set S2 d2 sym2 f2) ->
  (forall k l, f1 k l = f1 l k) -> (forall k l, f2 k l = f2 l k) ->
  forall g f e lb ub heur dfs cont h, gen_build_with_condition_r rnd srt (gen_init S1 S2 d1 d2 sym1 sym2 eps) f false = Ok (Ret g) ->
  edges_fit (gg_graph g) -> storage_live (gg_graph g) -> (exists u v, neighbour (gg_graph g) u v) ->
  history (gg_graph g) h -> lawful e lb ->
  ends_with (gen_get_elements e (with_graph g h) lb ub heur dfs cont) (fun r =>
    match snd r with
    | Ret (xs, ys) => exists a b, elements_at (gs_elems S1) a xs /\ elements_at (gs_elems S2) b ys
        /\ matching (length (gs_elems S1)) (length (gs_elems S2)) a b
        /\ about_matches f1 (wanted_set S2 d2 sym2 f2) eps a b /\ passed (declared d1 sym1) f a b /\ lb <= length xs
    | Raise x => x = EBounds
    end).
Proof. exact @search_any_r. Qed.
Print Assumptions C93_later_searches.

(** With equal distances all three are matched. *)
Example C93_example : gen_build_edges_r half_even pd_sort (gen_init names3 names3' (Some (apart s9_9)) (Some (apart s9_9)) true true s0_1) = Ok (Ret same)
  /\ edges_fit (gg_graph same) /\ storage_live (gg_graph same) /\ neighbour (gg_graph same) (vid 3 0 0) (vid 3 1 1)
  /\ measured (wanted_set names3 (Some (apart s9_9)) true (apart s9_9)) /\ double s0_1
  /\ (exists g, gen_get_elements (run_env None) same 1 DEFAULT_UB true true false = Ok (g, Ret ([100; 101; 102], [7; 8; 9])))
  /\ matching 3 3 [0; 1; 2] [0; 1; 2] /\ inside_matches (apart s9_9) (apart s9_9) s0_1 [0; 1; 2] [0; 1; 2].
Proof.
  split; [exact same_eq|]. split; [vm_compute; reflexivity|]. split; [apply liveb_sound; vm_compute; reflexivity|].
  split; [apply neighbourb_iff; vm_compute; reflexivity|]. split; [apply apart_measured; [vm_compute; discriminate|apply s9_9_double]|].
  split; [apply s0_1_double|]. split; [eexists; vm_compute; reflexivity|].
  split; [split; [reflexivity|]; split; [repeat constructor; cbn; lia|]; split; [repeat constructor; cbn; lia|]; split; intros i; cbn; lia|].
  intros k l K L N. cbn [length] in K, L.
  do 3 (destruct k as [|k]; [do 3 (destruct l as [|l]; [first [congruence|vm_compute; reflexivity]|]); lia|]). lia.
Qed.
