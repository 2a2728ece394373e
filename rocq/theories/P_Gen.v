(** P_Gen: properties of the generic wrappers and of the mask filter (C64 - C66). *)
From Verif Require Import Base MBits MUtils MGraph MHeur MStack MRec MEnum MApi MExt MGen MAlign Spec SpecDec SpecGen SearchProps Samples ExtFacts ExtProps ExtSamples GenFacts GenProps AlignFacts GenSamples MCorr CorrCalls.
From Coq Require Import QArith.
Local Open Scope nat_scope.

(** * C64: d2 is given, but the distances are those of the array. *)
Theorem C64_d2_ignored_refuted : exists srt (S1 S2 : gset nat) d2 eps g i i' j j', sorts_dists srt /\ (0 < eps)%Z
  /\ (forall k l, d2 k l = d2 l k) /\ gen_build_edges srt (gen_init S1 S2 None (Some d2) true true eps) = Ok (Ret g) /\ edges_fit (gg_graph g)
  /\ i < i' < length (gs_elems S1) /\ j < j' < length (gs_elems S2)
  /\ match wanted S1 None, wanted S2 (Some d2) with
     | Some f1, Some f2 => (Z.abs (f1 i i' - f2 j j') < eps)%Z
     | _, _ => False
     end
  /\ ~ neighbour (gg_graph g) (vid (length (gs_elems S2)) i j) (vid (length (gs_elems S2)) i' j').
Proof.
  exists pd_sort, arr3, arr4, (line [0; 3; 10; 50]%Z), 1%Z.
  exists (match gen_build_edges pd_sort (gen_init arr3 arr4 None None true true 1) with Ok (Ret g) => g | _ => gline0 end), 0, 1, 0, 1.
  split; [apply pd_sort_sorts|]. split; [reflexivity|]. split; [intros; apply line_sym|]. split; [vm_compute; reflexivity|].
  split; [vm_compute; reflexivity|]. split; [cbn; lia|]. split; [cbn; lia|]. split; [vm_compute; reflexivity|].
  apply neighbourb_no. vm_compute. reflexivity.
Qed.
Print Assumptions C64_d2_ignored_refuted.

(** Full claim: the metrics used are those given, or the default ones for those not given. What holds: unless d2 is given and d1 is not. *)
Theorem C64_kept_partial : forall E1 E2 (S1 : gset E1) (S2 : gset E2) d1 d2 sym1 sym2 eps srt, sorts_dists srt ->
  d1 <> None \/ d2 = None ->
  forall f1 f2, wanted S1 d1 = Some f1 -> wanted S2 d2 = Some f2 -> table_fits (wanted_set S2 d2 sym2 f2) ->
  forall g i i' j j', honest (wanted_set S1 d1 sym1 f1) -> honest (wanted_set S2 d2 sym2 f2) ->
  gen_build_edges srt (gen_init S1 S2 d1 d2 sym1 sym2 eps) = Ok (Ret g) -> edges_fit (gg_graph g) ->
  two (wanted_set S1 d1 sym1 f1) i i' -> two (wanted_set S2 d2 sym2 f2) j j' -> (Z.abs (f1 i i' - f2 j j') < eps)%Z ->
  neighbour (gg_graph g) (vid (length (gs_elems S2)) i j) (vid (length (gs_elems S2)) i' j').
Proof. exact @gen_keeps. Qed.
Print Assumptions C64_kept_partial.

Theorem C64_nearest_partial : forall E1 E2 (S1 : gset E1) (S2 : gset E2) d1 d2 sym1 sym2 eps srt, sorts_dists srt ->
  d1 <> None \/ d2 = None ->
  forall f1 f2, wanted S1 d1 = Some f1 -> wanted S2 d2 = Some f2 -> table_fits (wanted_set S2 d2 sym2 f2) ->
  forall g i i' j j', (forall k l, f1 k l = f1 l k) -> (forall k l, f2 k l = f2 l k) ->
  gen_build_edges srt (gen_init S1 S2 d1 d2 sym1 sym2 eps) = Ok (Ret g) -> edges_fit (gg_graph g) ->
  j < length (gs_elems S2) -> j' < length (gs_elems S2) ->
  neighbour (gg_graph g) (vid (length (gs_elems S2)) i j) (vid (length (gs_elems S2)) i' j') ->
  two (wanted_set S1 d1 sym1 f1) i i' /\ j <> j'
  /\ ((Z.abs (f1 i i' - f2 j j') <= eps)%Z \/ next_to (wanted_set S2 d2 sym2 f2) eps (f1 i i') (f2 j j')).
Proof. exact @gen_adds. Qed.
Print Assumptions C64_nearest_partial.

(** No metric for a set of two or more elements: an exception, no graph. *)
Theorem C64_no_metric_partial : forall E1 E2 (S1 : gset E1) (S2 : gset E2) d1 d2 sym1 sym2 eps srt, d1 <> None \/ d2 = None ->
  (wanted S1 d1 = None /\ 2 <= length (gs_elems S1))
  \/ (wanted S2 d2 = None /\ 2 <= length (gs_elems S2) /\ (wanted S1 d1 <> None \/ length (gs_elems S1) < 2)) ->
  gen_build_edges srt (gen_init S1 S2 d1 d2 sym1 sym2 eps) = Ok (Raise ENoMetric)
  /\ forall f, gen_build_with_condition srt (gen_init S1 S2 d1 d2 sym1 sym2 eps) f false = Ok (Raise ENoMetric).
Proof. exact @no_metric. Qed.
Print Assumptions C64_no_metric_partial.

(** With use_cfunc_only the metrics play no part (compare C47). *)
Theorem C64_condition_only : forall E1 E2 srt (g0 g : gengraph E1 E2) f i i' j j',
  gen_build_with_condition srt g0 f true = Ok (Ret g) -> edges_fit (gg_graph g) ->
  i < i' < length (gs_elems (gg_S1 g0)) -> j < length (gs_elems (gg_S2 g0)) -> j' < length (gs_elems (gg_S2 g0)) -> j <> j' ->
  (neighbour (gg_graph g) (vid (length (gs_elems (gg_S2 g0))) i j) (vid (length (gs_elems (gg_S2 g0))) i' j')
   <-> f i i' (Nat.min j j') (Nat.max j j') = true).
Proof. exact @gen_condition_only. Qed.
Print Assumptions C64_condition_only.

Example C64_example : gen_build_edges pd_sort (gen_init names3 names4 (Some pos3) (Some pos4) true true 1) = Ok (Ret gline)
  /\ edges_fit (gg_graph gline) /\ wanted names3 (Some pos3) = Some pos3 /\ wanted names4 (Some pos4) = Some pos4
  /\ table_fits (wanted_set names4 (Some pos4) true pos4)
  /\ neighbour (gg_graph gline) (vid 4 0 2) (vid 4 1 3) /\ ~ neighbour (gg_graph gline) (vid 4 0 2) (vid 4 1 1)
  /\ gen_build_edges pd_sort (gen_init names3 names4 None None true true 1) = Ok (Raise ENoMetric)
  /\ exists g, gen_build_with_condition pd_sort gline0 no1 true = Ok (Ret g) /\ edges_fit (gg_graph g)
       /\ neighbour (gg_graph g) (vid 4 0 0) (vid 4 1 3) /\ ~ neighbour (gg_graph g) (vid 4 0 1) (vid 4 1 3).
Proof.
  split; [exact gline_eq|]. split; [vm_compute; reflexivity|]. do 2 (split; [reflexivity|]). split; [vm_compute; reflexivity|].
  split; [apply neighbourb_iff; vm_compute; reflexivity|]. split; [apply neighbourb_no; vm_compute; reflexivity|].
  split; [vm_compute; reflexivity|]. eexists. split; [vm_compute; reflexivity|]. split; [vm_compute; reflexivity|].
  split; [apply neighbourb_iff; vm_compute; reflexivity|apply neighbourb_no; vm_compute; reflexivity].
Qed.

(** * C65 *)
Theorem C65_maximum_correspondence : forall n1 n2 p, corr_graph n1 n2 p -> edges_fit p -> storage_live p -> (exists u v, neighbour p u v) ->
  forall e ub heur cont, permutes e -> never_late e -> n1 <= ub \/ n2 <= ub ->
  ends_with (get_correspondence e p n2 1 ub heur true cont) (fun r => exists a b, snd r = Ret (a, b)
    /\ matching n1 n2 a b /\ compatible p n2 a b
    /\ forall a' b', matching n1 n2 a' b' -> compatible p n2 a' b' -> length a' <= length a).
Proof. exact corr_maximum. Qed.
Print Assumptions C65_maximum_correspondence.

(** From the metrics to the elements returned. *)
Theorem C65_elements : forall E1 E2 (S1 : gset E1) (S2 : gset E2) d1 d2 sym1 sym2 eps srt, sorts_dists srt ->
  d1 <> None \/ d2 = None ->
  forall f1 f2, wanted S1 d1 = Some f1 -> wanted S2 d2 = Some f2 -> table_fits (wanted_set S2 d2 sym2 f2) ->
  (forall k l, f1 k l = f1 l k) -> (forall k l, f2 k l = f2 l k) ->
  forall g e ub heur cont, gen_build_edges srt (gen_init S1 S2 d1 d2 sym1 sym2 eps) = Ok (Ret g) ->
  edges_fit (gg_graph g) -> storage_live (gg_graph g) -> (exists u v, neighbour (gg_graph g) u v) ->
  permutes e -> never_late e -> length (gs_elems S1) <= ub \/ length (gs_elems S2) <= ub ->
  ends_with (gen_get_elements e g 1 ub heur true cont) (fun r => exists xs ys a b, snd r = Ret (xs, ys)
    /\ elements_at (gs_elems S1) a xs /\ elements_at (gs_elems S2) b ys /\ matching (length (gs_elems S1)) (length (gs_elems S2)) a b
    /\ near_matches f1 (wanted_set S2 d2 sym2 f2) eps a b
    /\ forall a' b', matching (length (gs_elems S1)) (length (gs_elems S2)) a' b' -> close_matches f1 f2 eps a' b' -> length a' <= length a).
Proof. exact @search_metric. Qed.
Print Assumptions C65_elements.

Theorem C65_elements_with_condition : forall E1 E2 (S1 : gset E1) (S2 : gset E2) d1 d2 sym1 sym2 eps srt, sorts_dists srt ->
  d1 <> None \/ d2 = None ->
  forall f1 f2, wanted S1 d1 = Some f1 -> wanted S2 d2 = Some f2 -> table_fits (wanted_set S2 d2 sym2 f2) ->
  (forall k l, f1 k l = f1 l k) -> (forall k l, f2 k l = f2 l k) ->
  forall g f e ub heur cont, gen_build_with_condition srt (gen_init S1 S2 d1 d2 sym1 sym2 eps) f false = Ok (Ret g) ->
  edges_fit (gg_graph g) -> storage_live (gg_graph g) -> (exists u v, neighbour (gg_graph g) u v) ->
  permutes e -> never_late e -> length (gs_elems S1) <= ub \/ length (gs_elems S2) <= ub ->
  ends_with (gen_get_elements e g 1 ub heur true cont) (fun r => exists xs ys a b, snd r = Ret (xs, ys)
    /\ elements_at (gs_elems S1) a xs /\ elements_at (gs_elems S2) b ys /\ matching (length (gs_elems S1)) (length (gs_elems S2)) a b
    /\ near_matches f1 (wanted_set S2 d2 sym2 f2) eps a b /\ passed (declared d1 sym1) f a b
    /\ forall a' b', matching (length (gs_elems S1)) (length (gs_elems S2)) a' b' -> close_matches f1 f2 eps a' b' ->
         allowed (declared d1 sym1) f a' b' -> length a' <= length a).
Proof. exact @search_both. Qed.
Print Assumptions C65_elements_with_condition.

(** Any search on the object after other searches, with any bounds. *)
Theorem C65_later_searches : forall E1 E2 (S1 : gset E1) (S2 : gset E2) d1 d2 sym1 sym2 eps srt, sorts_dists srt ->
  d1 <> None \/ d2 = None ->
  forall f1 f2, wanted S1 d1 = Some f1 -> wanted S2 d2 = Some f2 -> table_fits (wanted_set S2 d2 sym2 f2) ->
  (forall k l, f1 k l = f1 l k) -> (forall k l, f2 k l = f2 l k) ->
  forall g f e lb ub heur dfs cont h, gen_build_with_condition srt (gen_init S1 S2 d1 d2 sym1 sym2 eps) f false = Ok (Ret g) ->
  edges_fit (gg_graph g) -> storage_live (gg_graph g) -> (exists u v, neighbour (gg_graph g) u v) ->
  history (gg_graph g) h -> lawful e lb ->
  ends_with (gen_get_elements e (with_graph g h) lb ub heur dfs cont) (fun r =>
    match snd r with
    | Ret (xs, ys) => exists a b, elements_at (gs_elems S1) a xs /\ elements_at (gs_elems S2) b ys
        /\ matching (length (gs_elems S1)) (length (gs_elems S2)) a b
        /\ near_matches f1 (wanted_set S2 d2 sym2 f2) eps a b /\ passed (declared d1 sym1) f a b /\ lb <= length xs
    | Raise x => x = EBounds
    end).
Proof. exact @search_any. Qed.
Print Assumptions C65_later_searches.

(** all_correspondences *)
Theorem C65_all_correspondences : forall E1 E2 (S1 : gset E1) (S2 : gset E2) d1 d2 sym1 sym2 eps srt, sorts_dists srt ->
  d1 <> None \/ d2 = None ->
  forall f1 f2, wanted S1 d1 = Some f1 -> wanted S2 d2 = Some f2 -> table_fits (wanted_set S2 d2 sym2 f2) ->
  (forall k l, f1 k l = f1 l k) -> (forall k l, f2 k l = f2 l k) ->
  forall g f lr k i h en0 q1 en1 l g2 en2 r, gen_build_with_condition srt (gen_init S1 S2 d1 d2 sym1 sym2 eps) f false = Ok (Ret g) ->
  edges_fit (gg_graph g) -> storage_live (gg_graph g) -> (exists u v, neighbour (gg_graph g) u v) ->
  history (gg_graph g) h -> gen_all_correspondences (with_graph g h) k = Ret en0 -> nexts i lr h en0 = Ok (q1, en1, l) -> length l = i ->
  gen_next_elements lr (with_graph g q1) en1 = Ok (g2, en2, r) ->
  match r with
  | Ret (xs, ys) => exists a b, elements_at (gs_elems S1) a xs /\ elements_at (gs_elems S2) b ys
      /\ matching (length (gs_elems S1)) (length (gs_elems S2)) a b
      /\ near_matches f1 (wanted_set S2 d2 sym2 f2) eps a b /\ passed (declared d1 sym1) f a b /\ length xs = k
  | Raise x => exists q2, next_clique lr q1 en1 = Ok (q2, en2, Raise x)
  end.
Proof. exact @listed_any. Qed.
Print Assumptions C65_all_correspondences.

Example C65_example : (exists g, gen_get_elements (run_env None) gline 1 DEFAULT_UB true true false = Ok (g, Ret ([100; 101; 102], [9; 10; 8])))
  /\ storage_live (gg_graph gline) /\ neighbour (gg_graph gline) (vid 4 0 2) (vid 4 1 3)
  /\ permutes (run_env None) /\ never_late (run_env None) /\ 3 <= DEFAULT_UB
  /\ matching 3 4 [0; 1; 2] [2; 3; 1] /\ close_matches pos3 pos4 1 [0; 1; 2] [2; 3; 1].
Proof.
  split; [eexists; vm_compute; reflexivity|]. split; [apply liveb_sound; vm_compute; reflexivity|].
  split; [apply neighbourb_iff; vm_compute; reflexivity|]. split; [apply run_env_sorts|]. split; [apply untimed_never_late; reflexivity|].
  split; [apply Nat.leb_le; vm_compute; reflexivity|].
  split.
  - split; [reflexivity|]. split; [repeat constructor; cbn; lia|]. split; [repeat constructor; cbn; lia|]. split; intros i; cbn; lia.
  - intros k l K L N. cbn [length] in K, L. do 3 (destruct k as [|k]; [do 3 (destruct l as [|l]; [vm_compute; congruence|]); lia|]). lia.
Qed.

Example C65_condition_example : gen_build_with_condition pd_sort gline0 no1 false = Ok (Ret gcond) /\ edges_fit (gg_graph gcond)
  /\ storage_live (gg_graph gcond) /\ neighbour (gg_graph gcond) (vid 4 0 2) (vid 4 1 3)
  /\ (exists g, gen_get_elements (run_env None) gcond 1 DEFAULT_UB true true false = Ok (g, Ret ([100; 101], [9; 10])))
  /\ exists g en, gen_next_elements false gcond (new_enum 2) = Ok (g, en, Ret ([100; 101], [9; 10])).
Proof.
  split; [exact gcond_eq|]. split; [vm_compute; reflexivity|]. split; [apply liveb_sound; vm_compute; reflexivity|].
  split; [apply neighbourb_iff; vm_compute; reflexivity|]. split; [eexists; vm_compute; reflexivity|].
  eexists. eexists. vm_compute. reflexivity.
Qed.

(** * C66: a control point that lands at (-1/2, 0) counts as inside. *)
Theorem C66_left_of_canvas_refuted : exists ctl m pct M1 M2 i1 j1 i2 j2 t, ctl <> [] /\ ~ same_point (M2 i2) (M2 j2)
  /\ aligns t (M2 i2) (M1 i1) (M2 j2) (M1 j1) /\ filter_rule ctl m pct M1 M2 i1 j1 i2 j2 = Ok true /\ ~ enough ctl m pct t.
Proof.
  exists [(0, 0)%Q], (canvas 4 4), 1%Q, (at_pts [(-1 # 2, 0); (1 # 2, 0)]%Q), (at_pts [(0, 0); (1, 0)]%Q), 0, 1, 0, 1, (mkSim 1 0 (-1 # 2) 0).
  split; [discriminate|]. split; [intros (H & _); discriminate|]. split; [repeat split; reflexivity|].
  split; [vm_compute; reflexivity|]. vm_compute. intros H. apply H. reflexivity.
Qed.
Print Assumptions C66_left_of_canvas_refuted.

(** One that lands at (-2, 0) makes the conversion undefined. *)
Theorem C66_undefined_refuted : exists ctl m pct M1 M2 i1 j1 i2 j2, ctl <> [] /\ ~ same_point (M2 i2) (M2 j2)
  /\ filter_rule ctl m pct M1 M2 i1 j1 i2 j2 = UB BadCast.
Proof.
  exists [(0, 0)%Q], (canvas 4 4), 1%Q, (at_pts [(-2, 0); (-1, 0)]%Q), (at_pts [(0, 0); (1, 0)]%Q), 0, 1, 0, 1.
  split; [discriminate|]. split; [intros (H & _); discriminate|]. vm_compute. reflexivity.
Qed.
Print Assumptions C66_undefined_refuted.

Theorem C66_always_undefined : forall ctl m pct M1 M2 i1 j1 i2 j2 t s, ~ same_point (M2 i2) (M2 j2) ->
  aligns t (M2 i2) (M1 i1) (M2 j2) (M1 j1) -> In s ctl ->
  (let x := image t s in fst x <= - inject_Z 1 \/ inject_Z 18446744073709551616 <= fst x
                         \/ snd x <= - inject_Z 1 \/ inject_Z 18446744073709551616 <= snd x)%Q ->
  filter_rule ctl m pct M1 M2 i1 j1 i2 j2 = UB BadCast.
Proof. exact outside_undefined. Qed.
Print Assumptions C66_always_undefined.

Theorem C66_transformation : forall s1 s2 d1 d2, ~ same_point s1 s2 -> exists t, aligns t s1 d1 s2 d2
  /\ forall t', aligns t' s1 d1 s2 d2 -> forall s, same_point (image t' s) (image t s).
Proof. exact transform_exists. Qed.
Print Assumptions C66_transformation.

(** Full claim: the filter decides whether the fraction [pct] of the control points lands inside the mask. What holds: if all
    of them land at coordinates a u64 can hold. *)
Theorem C66_filter_partial : forall ctl m pct M1 M2 i1 j1 i2 j2 t, ctl <> [] -> ~ same_point (M2 i2) (M2 j2) ->
  aligns t (M2 i2) (M1 i1) (M2 j2) (M1 j1) -> (forall s, In s ctl -> on_canvas (image t s)) ->
  exists x, filter_rule ctl m pct M1 M2 i1 j1 i2 j2 = Ok x /\ (x = true <-> enough ctl m pct t).
Proof. exact filter_meaning. Qed.
Print Assumptions C66_filter_partial.

Theorem C66_same_points : forall ctl m pct M1 M2 i1 j1 i2 j2, same_point (M2 i2) (M2 j2) ->
  exists x, filter_rule ctl m pct M1 M2 i1 j1 i2 j2 = Ok x /\ (x = true <-> (pct <= 0)%Q).
Proof. exact filter_same_points. Qed.
Print Assumptions C66_same_points.

Theorem C66_graph_partial : forall srt n1 n2 M1 M2 d1 d2 eps ctl m pct, sorts_dists srt -> table_fits (mkM n2 d2 true) ->
  (forall k l, d1 k l = d1 l k) -> (forall k l, d2 k l = d2 l k) -> ctl <> [] ->
  forall p q i i' j j' t, build_edges_with_filter srt p n1 n2 M1 M2 d1 d2 eps ctl m pct = Ok (Ret q) -> edges_fit q ->
  i < i' < n1 -> j < n2 -> j' < n2 -> ~ same_point (M2 j) (M2 j') ->
  aligns t (M2 j) (M1 i) (M2 j') (M1 i') -> (forall s, In s ctl -> on_canvas (image t s)) ->
  (neighbour q (vid n2 i j) (vid n2 i' j') -> enough ctl m pct t)
  /\ ((Z.abs (d1 i i' - d2 j j') < eps)%Z -> enough ctl m pct t -> neighbour q (vid n2 i j) (vid n2 i' j')).
Proof. exact filter_graph. Qed.
Print Assumptions C66_graph_partial.

Theorem C66_total_partial : forall srt n1 n2 M1 M2 d1 d2 eps ctl m pct, sorts_dists srt -> table_fits (mkM n2 d2 true) ->
  forall p, fits (n1 * n2 + 1 + 4 * (n1 * n1 * (n2 * n2))) -> 1 <= n1 -> 1 <= n2 -> n2 <> 1 \/ n1 < 2 ->
  (forall i i' j j', i < n1 -> i' < n1 -> j < n2 -> j' < n2 -> exists x, filter_rule ctl m pct M1 M2 i i' j j' = Ok x) ->
  exists q, build_edges_with_filter srt p n1 n2 M1 M2 d1 d2 eps ctl m pct = Ok (Ret q) /\ edges_fit q.
Proof. exact filter_total. Qed.
Print Assumptions C66_total_partial.

Example C66_example : aligns (mkSim 0 1 5 1) (at_pts corners 0) (at_pts moved_corners 0) (at_pts corners 1) (at_pts moved_corners 1)
  /\ ~ same_point (at_pts corners 0) (at_pts corners 1)
  /\ (forall s, In s [(0, 0); (1, 0)]%Q -> on_canvas (image (mkSim 0 1 5 1) s))
  /\ filter_rule [(0, 0); (1, 0)]%Q (canvas 8 8) 1 (at_pts moved_corners) (at_pts corners) 0 1 0 1 = Ok true
  /\ filter_rule [(0, 0); (1, 0)]%Q left_part 1 (at_pts moved_corners) (at_pts corners) 0 1 0 1 = Ok false
  /\ exists q, build_edges_with_filter pd_sort new_pygraph 3 3 (at_pts moved_corners) (at_pts corners) (sqd moved_corners) (sqd corners) 1
                 [(1, 1)%Q] (canvas 8 8) (1 # 2) = Ok (Ret q) /\ edges_fit q /\ neighbour q (vid 3 0 0) (vid 3 1 1).
Proof.
  split; [repeat split; reflexivity|]. split; [intros (H & _); discriminate|].
  split; [intros s [<-|[<-|[]]]; repeat split; vm_compute; congruence|]. split; [vm_compute; reflexivity|].
  split; [vm_compute; reflexivity|]. eexists. split; [vm_compute; reflexivity|]. split; [vm_compute; reflexivity|].
  apply neighbourb_iff. vm_compute. reflexivity.
Qed.
