(** P_Mask: MaskFilter and AlignGraph.build_edges_with_filter (C75). *)
From Verif Require Import Base MBits MUtils MGraph MApi MExt MGen MAlign MMask Spec SpecGen SpecMask ExtSamples GenSamples MaskProps.
From Coq Require Import QArith.
Local Open Scope nat_scope.

(** * C75. Full claim: MaskFilter decides as the filter in C++ does. What holds: it does for two different points of set 2, if the conversion
    to float32 changes neither the points nor the transformation. *)
Theorem C75_agree_partial : forall f32 ctl m pct M1 M2 i1 j1 i2 j2, exact_here f32 (M2 i2) (M1 i1) (M2 j2) (M1 j1) -> ~ same_point (M2 i2) (M2 j2) ->
  mask_filter f32 ctl m pct M1 M2 i1 j1 i2 j2 = (x <- filter_rule ctl m pct M1 M2 i1 j1 i2 j2;; Ok (Some x)).
Proof. exact mask_agrees. Qed.
Print Assumptions C75_agree_partial.

(** The graphs are then the same, too, for a positive percentage. *)
Theorem C75_graph_partial : forall (E1 E2 : Type) srt (S1 : gset E1) (S2 : gset E2) d1 d2 sym1 sym2 eps M1 M2 f32 ctl m pct cf q, sorts_dists srt ->
  gs_euclid S1 = Some d1 -> gs_euclid S2 = Some d2 -> (0 < pct)%Q ->
  (forall i i' j j', i < length (gs_elems S1) -> i' < length (gs_elems S1) -> j < length (gs_elems S2) -> j' < length (gs_elems S2) ->
     (~ same_point (M2 j) (M2 j') -> exact_here f32 (M2 j) (M1 i) (M2 j') (M1 i'))
     /\ mask_filter f32 ctl m pct M1 M2 i i' j j' = Ok (Some (cf i i' j j'))) ->
  build_edges_with_filter srt new_pygraph (length (gs_elems S1)) (length (gs_elems S2)) M1 M2 d1 d2 eps ctl m pct = Ok (Ret q)
  <-> exists g, gen_build_with_condition srt (gen_init S1 S2 None None sym1 sym2 eps) cf false = Ok (Ret g) /\ gg_graph g = q.
Proof. exact @mask_graph. Qed.
Print Assumptions C75_graph_partial.

(** Two equal points of set 2 are accepted by one and rejected by the other if the percentage is 0. *)
Theorem C75_same_points_refuted : exists f32 ctl m pct M1 M2 i1 j1 i2 j2, (forall x, f32 x = x) /\ i2 <> j2 /\ (0 <= pct)%Q
  /\ mask_filter f32 ctl m pct M1 M2 i1 j1 i2 j2 = Ok (Some false) /\ filter_rule ctl m pct M1 M2 i1 j1 i2 j2 = Ok true.
Proof.
  exists (fun x => x), [(0, 0)%Q], (canvas 4 4), 0%Q, (at_pts corners), (at_pts [(1, 1); (1, 1)]%Q), 0, 1, 0, 1.
  split; [reflexivity|]. split; [discriminate|]. split; [vm_compute; discriminate|]. split; vm_compute; reflexivity.
Qed.
Print Assumptions C75_same_points_refuted.

(** Integer coordinates of 25 bits: MaskFilter takes the point next to the right one. *)
Theorem C75_float32_refuted : exists ctl m pct M1 M2 i1 j1 i2 j2, (0 < pct)%Q /\ ~ same_point (M2 i2) (M2 j2)
  /\ filter_rule ctl m pct M1 M2 i1 j1 i2 j2 = Ok true
  /\ forall f32, like_float32 f32 -> mask_filter f32 ctl m pct M1 M2 i1 j1 i2 j2 = Ok (Some false).
Proof.
  exists [(0, 0)%Q], far_column, 1%Q, far_points, near_points, 0, 1, 0, 1. split; [reflexivity|]. split; [intros (H & _); discriminate H|].
  split; [exact far_filter|exact far_mask].
Qed.
Print Assumptions C75_float32_refuted.

Example C75_example : like_float32 drop_one
  /\ exact_here (fun x => x) (at_pts corners 0) (at_pts moved_corners 0) (at_pts corners 1) (at_pts moved_corners 1)
  /\ ~ same_point (at_pts corners 0) (at_pts corners 1)
  /\ mask_filter (fun x => x) [(0, 0); (1, 0)]%Q (canvas 8 8) 1 (at_pts moved_corners) (at_pts corners) 0 1 0 1 = Ok (Some true)
  /\ mask_filter (fun x => x) [(0, 0); (1, 0)]%Q left_part 1 (at_pts moved_corners) (at_pts corners) 0 1 0 1 = Ok (Some false)
  /\ exists cf, (forall i i' j j', i < 3 -> i' < 3 -> j < 3 -> j' < 3 ->
       mask_filter (fun x => x) [(1, 1)%Q] (canvas 8 8) (1 # 2) (at_pts moved_corners) (at_pts corners) i i' j j' = Ok (Some (cf i i' j j')))
       /\ exists g, gen_build_with_condition pd_sort (gen_init (mkGS moved_corners (Some (sqd moved_corners))) (mkGS corners (Some (sqd corners))) None None true true 1) cf false = Ok (Ret g).
Proof.
  split; [exact drop_one_like|]. split; [split; intros; [split|]; reflexivity|]. split; [intros (H & _); discriminate H|].
  split; [vm_compute; reflexivity|]. split; [vm_compute; reflexivity|].
  exists (fun i i' j j' => match mask_filter (fun x => x) [(1, 1)%Q] (canvas 8 8) (1 # 2) (at_pts moved_corners) (at_pts corners) i i' j j' with
    Ok (Some x) => x | _ => false end). split.
  - intros i i' j j' I I' J J'. destruct i as [|[|[|i]]]; [| | |lia]; destruct i' as [|[|[|i']]]; try lia; destruct j as [|[|[|j]]]; try lia;
      destruct j' as [|[|[|j']]]; try lia; vm_compute; reflexivity.
  - eexists. vm_compute. reflexivity.
Qed.
