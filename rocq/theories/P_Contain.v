(** P_Contain: a set that is contained in another is matched completely (C100). *)
From Coq Require Import Permutation.
From Verif Require Import Base MBits MUtils MGraph MHeur MStack MRec MEnum MApi MExt MGen Spec SpecDec SpecGen SpecRound SpecContain SearchProps Samples ExtSamples RoundFacts RoundSamples GenSamples GenRoundSamples ContainFacts.
Local Open Scope nat_scope.

(** * C100. Full claim: if the elements of S1 can be placed among those of S2 so that no distance changes by more than epsilon, get_correspondence
    returns all elements of S1.

    False if a distance changes by exactly epsilon: three elements at distance 10 from each other, matched with themselves, epsilon 0 (C45). *)
Theorem C100_epsilon_refuted : exists srt (S : gset nat) f g g' xs ys, sorts_dists srt /\ length (gs_elems S) = 3
  /\ (forall k l, f k l = f l k) /\ table_fits (wanted_set S (Some f) true f) /\ placed 3 3 (fun k => k)
  /\ (forall k l, (Z.abs (f k l - f k l) <= 0)%Z)
  /\ gen_build_edges srt (gen_init S S (Some f) (Some f) true true 0) = Ok (Ret g) /\ edges_fit (gg_graph g) /\ storage_live (gg_graph g)
  /\ gen_get_elements (run_env None) g 1 DEFAULT_UB true true false = Ok (g', Ret (xs, ys)) /\ length xs = 2.
Proof.
  exists pd_sort, names3, (apart 10). do 4 eexists. split; [apply pd_sort_sorts|]. split; [reflexivity|]. split; [apply apart_sym|]. split; [vm_compute; reflexivity|].
  split; [split; auto|]. split; [intros; lia|]. split; [vm_compute; reflexivity|]. split; [vm_compute; reflexivity|]. split; [apply liveb_sound; vm_compute; reflexivity|].
  split; [vm_compute; reflexivity|reflexivity].
Qed.
Print Assumptions C100_epsilon_refuted.

(** In floating point also for a positive epsilon that is lost when it is subtracted from the distances. *)
Theorem C100_rounding_refuted : exists rnd srt (S : gset nat) f eps g g' xs ys, nearest rnd /\ sorts_dists srt /\ length (gs_elems S) = 3
  /\ (0 < eps)%Z /\ double eps /\ measured (wanted_set S (Some f) true f)
  /\ (forall k l, f k l = f l k) /\ table_fits (wanted_set S (Some f) true f) /\ placed 3 3 (fun k => k)
  /\ (forall k l, (Z.abs (f k l - f k l) < eps)%Z)
  /\ gen_build_edges_r rnd srt (gen_init S S (Some f) (Some f) true true eps) = Ok (Ret g) /\ edges_fit (gg_graph g) /\ storage_live (gg_graph g)
  /\ gen_get_elements (run_env None) g 1 DEFAULT_UB true true false = Ok (g', Ret (xs, ys)) /\ length xs = 2.
Proof.
  exists half_even, pd_sort, names3, (apart s10), 1%Z. do 4 eexists. split; [apply half_even_nearest|]. split; [apply pd_sort_sorts|]. split; [reflexivity|].
  split; [reflexivity|]. split; [exists 1%Z, 0%Z; repeat split; discriminate|].
  split; [apply apart_measured; [vm_compute; discriminate|apply s10_double]|]. split; [apply apart_sym|]. split; [vm_compute; reflexivity|].
  split; [split; auto|]. split; [intros; lia|]. split; [vm_compute; reflexivity|]. split; [vm_compute; reflexivity|]. split; [apply liveb_sound; vm_compute; reflexivity|].
  split; [vm_compute; reflexivity|reflexivity].
Qed.
Print Assumptions C100_rounding_refuted.

(** What holds: distances that change by less than epsilon, ... *)
Theorem C100_contained_partial : forall E1 E2 (S1 : gset E1) (S2 : gset E2) d1 d2 sym1 sym2 eps srt, sorts_dists srt -> d1 <> None \/ d2 = None ->
  forall f1 f2, wanted S1 d1 = Some f1 -> wanted S2 d2 = Some f2 -> table_fits (wanted_set S2 d2 sym2 f2) ->
  (forall k l, f1 k l = f1 l k) -> (forall k l, f2 k l = f2 l k) ->
  forall phi, 2 <= length (gs_elems S1) -> placed (length (gs_elems S1)) (length (gs_elems S2)) phi ->
  (forall k l, k < length (gs_elems S1) -> l < length (gs_elems S1) -> k <> l -> (Z.abs (f1 k l - f2 (phi k) (phi l)) < eps)%Z) ->
  forall g e ub heur cont, gen_build_edges srt (gen_init S1 S2 d1 d2 sym1 sym2 eps) = Ok (Ret g) ->
  edges_fit (gg_graph g) -> storage_live (gg_graph g) ->
  permutes e -> never_late e -> length (gs_elems S1) <= ub \/ length (gs_elems S2) <= ub ->
  ends_with (gen_get_elements e g 1 ub heur true cont) (fun r => exists xs ys a b, snd r = Ret (xs, ys)
    /\ elements_at (gs_elems S1) a xs /\ elements_at (gs_elems S2) b ys /\ matching (length (gs_elems S1)) (length (gs_elems S2)) a b
    /\ near_matches f1 (wanted_set S2 d2 sym2 f2) eps a b /\ Permutation xs (gs_elems S1)).
Proof. exact @contained. Qed.
Print Assumptions C100_contained_partial.

(** ... and in floating point by less than epsilon with three units of 2^-53, relative to the distance and epsilon, to spare. *)
Theorem C100_contained_rounded_partial : forall E1 E2 rnd (S1 : gset E1) (S2 : gset E2) d1 d2 sym1 sym2 eps srt, nearest rnd -> sorts_dists srt ->
  d1 <> None \/ d2 = None -> (0 <= eps)%Z -> double eps ->
  forall f1 f2, wanted S1 d1 = Some f1 -> wanted S2 d2 = Some f2 -> table_fits (wanted_set S2 d2 sym2 f2) ->
  measured (wanted_set S1 d1 sym1 f1) -> measured (wanted_set S2 d2 sym2 f2) ->
  (forall k l, f1 k l = f1 l k) -> (forall k l, f2 k l = f2 l k) ->
  forall phi, 2 <= length (gs_elems S1) -> placed (length (gs_elems S1)) (length (gs_elems S2)) phi ->
  (forall k l, k < length (gs_elems S1) -> l < length (gs_elems S1) -> k <> l -> well_inside eps (f1 k l) (f2 (phi k) (phi l))) ->
  forall g e ub heur cont, gen_build_edges_r rnd srt (gen_init S1 S2 d1 d2 sym1 sym2 eps) = Ok (Ret g) ->
  edges_fit (gg_graph g) -> storage_live (gg_graph g) ->
  permutes e -> never_late e -> length (gs_elems S1) <= ub \/ length (gs_elems S2) <= ub ->
  ends_with (gen_get_elements e g 1 ub heur true cont) (fun r => exists xs ys a b, snd r = Ret (xs, ys)
    /\ elements_at (gs_elems S1) a xs /\ elements_at (gs_elems S2) b ys /\ matching (length (gs_elems S1)) (length (gs_elems S2)) a b
    /\ about_matches f1 (wanted_set S2 d2 sym2 f2) eps a b /\ Permutation xs (gs_elems S1)).
Proof. exact @contained_r. Qed.
Print Assumptions C100_contained_rounded_partial.

(** Three points on a line, found among four. *)
Example C100_example : placed 3 4 (fun k => nth k [2; 3; 1] 0)
  /\ (forall k l, k < 3 -> l < 3 -> k <> l -> (Z.abs (pos3 k l - pos4 (nth k [2; 3; 1]%nat 0%nat) (nth l [2; 3; 1]%nat 0%nat)) < 1)%Z)
  /\ gen_build_edges pd_sort gline0 = Ok (Ret gline) /\ edges_fit (gg_graph gline) /\ storage_live (gg_graph gline)
  /\ table_fits (wanted_set names4 (Some pos4) true pos4)
  /\ exists g xs ys, gen_get_elements (run_env None) gline 1 DEFAULT_UB true true false = Ok (g, Ret (xs, ys)) /\ Permutation xs (gs_elems names3).
Proof.
  split. { split; [intros [|[|[|k]]] K; cbn; lia|]. intros [|[|[|k]]] [|[|[|l]]] K L; cbn; lia. }
  split. { intros [|[|[|k]]] [|[|[|l]]] K L N; cbn; lia. }
  split; [exact gline_eq|]. split; [vm_compute; reflexivity|]. split; [apply liveb_sound; vm_compute; reflexivity|]. split; [vm_compute; reflexivity|].
  do 3 eexists. split; [vm_compute; reflexivity|reflexivity].
Qed.

(** Distances 9.9 and epsilon 0.1. *)
Example C100_rounded_example : exists g, gen_build_edges_r half_even pd_sort (gen_init names3 names3' (Some (apart s9_9)) (Some (apart s9_9)) true true s0_1) = Ok (Ret g)
  /\ edges_fit (gg_graph g) /\ storage_live (gg_graph g) /\ measured (wanted_set names3 (Some (apart s9_9)) true (apart s9_9))
  /\ well_inside s0_1 (apart s9_9 0 1) (apart s9_9 0 1)
  /\ exists g' xs ys, gen_get_elements (run_env None) g 1 DEFAULT_UB true true false = Ok (g', Ret (xs, ys)) /\ Permutation xs (gs_elems names3).
Proof.
  exists same. split; [exact same_eq|]. split; [vm_compute; reflexivity|]. split; [apply liveb_sound; vm_compute; reflexivity|].
  split; [apply apart_measured; [vm_compute; discriminate|apply s9_9_double]|]. split; [vm_compute; reflexivity|].
  do 3 eexists. split; [vm_compute; reflexivity|reflexivity].
Qed.
