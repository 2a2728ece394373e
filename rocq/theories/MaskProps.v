(** MaskProps: MaskFilter compared with the filter in C++. *)
From Verif Require Import Base BaseFacts MBits MUtils MGraph MApi MExt MGen MAlign MMask Spec SpecGen SpecMask FindTwo ExtFacts ExtProps GenFacts GenProps AlignFacts.
From Coq Require Import QArith Qround Lqa Setoid Lia.
Local Open Scope Q_scope.

Lemma qeq_bool_same x x' : x == x' -> Qeq_bool x 0 = Qeq_bool x' 0.
Proof.
  intros E. destruct (Qeq_bool x 0) eqn:A, (Qeq_bool x' 0) eqn:B; auto.
  - apply Qeq_bool_eq in A. apply Qeq_bool_neq in B. exfalso. apply B. rewrite <- E. exact A.
  - apply Qeq_bool_eq in B. apply Qeq_bool_neq in A. exfalso. apply A. rewrite E. exact B.
Qed.

Lemma to_u64_same q q' : q == q' -> to_u64 q = to_u64 q'.
Proof.
  destruct q as [n d], q' as [n' d']. unfold Qeq. cbn [Qnum Qden]. intros E. unfold to_u64. cbv zeta. cbn [Qnum Qden].
  assert (H : Z.quot n (Zpos d) = Z.quot n' (Zpos d')).
  { rewrite <- (Z.quot_mul_cancel_r n (Zpos d) (Zpos d')) by lia. rewrite <- (Z.quot_mul_cancel_r n' (Zpos d') (Zpos d)) by lia.
    rewrite E. f_equal. lia. }
  rewrite H. reflexivity.
Qed.

Lemma move_points_same a b c0 c1 a' b' c0' c1' ctl : a == a' -> b == b' -> c0 == c0' -> c1 == c1' ->
  move_points a b c0 c1 ctl = move_points a' b' c0' c1' ctl.
Proof.
  intros A B C D. induction ctl as [|[x y] ctl IH]; [reflexivity|]. cbn [move_points].
  rewrite (to_u64_same (a * x - b * y + c0) (a' * x - b' * y + c0')) by (rewrite A, B, C; reflexivity).
  rewrite (to_u64_same (b * x + a * y + c1) (b' * x + a' * y + c1')) by (rewrite A, B, D; reflexivity).
  rewrite IH. reflexivity.
Qed.

Lemma same_point_bool (s1 s2 : point) : Qeq_bool (fst s1 - fst s2) 0 && Qeq_bool (snd s1 - snd s2) 0 = true <-> same_point s1 s2.
Proof.
  unfold same_point. rewrite andb_true_iff. split.
  - intros (A & B). apply Qeq_bool_eq in A, B. split; lra.
  - intros (A & B). split; apply Qeq_eq_bool; lra.
Qed.

Lemma den_bool (s1 s2 : point) :
  Qeq_bool ((fst s1 - fst s2) * (fst s1 - fst s2) + (snd s1 - snd s2) * (snd s1 - snd s2)) 0
  = (Qeq_bool (fst s1 - fst s2) 0 && Qeq_bool (snd s1 - snd s2) 0)%bool.
Proof.
  destruct (Qeq_bool (fst s1 - fst s2) 0 && Qeq_bool (snd s1 - snd s2) 0)%bool eqn:E.
  - apply same_point_bool in E. destruct E as (A & B). apply Qeq_eq_bool. rewrite A, B. ring.
  - destruct (Qeq_bool (_ + _) 0) eqn:D; [|reflexivity]. apply Qeq_bool_eq in D. exfalso. apply (den_pos s1 s2); [|exact D].
    intros H. apply same_point_bool in H. congruence.
Qed.

Lemma mask_agrees f32 ctl m pct M1 M2 i1 j1 i2 j2 : exact_here f32 (M2 i2) (M1 i1) (M2 j2) (M1 j1) -> ~ same_point (M2 i2) (M2 j2) ->
  mask_filter f32 ctl m pct M1 M2 i1 j1 i2 j2 = (x <- filter_rule ctl m pct M1 M2 i1 j1 i2 j2;; Ok (Some x)).
Proof.
  intros (HP & HT) NS. unfold mask_filter, filter_rule.
  assert (P1 : same_point (pt32 f32 (M2 i2)) (M2 i2)) by (apply HP; left; reflexivity).
  assert (P2 : same_point (pt32 f32 (M1 i1)) (M1 i1)) by (apply HP; right; left; reflexivity).
  assert (P3 : same_point (pt32 f32 (M2 j2)) (M2 j2)) by (apply HP; right; right; left; reflexivity).
  assert (P4 : same_point (pt32 f32 (M1 j1)) (M1 j1)) by (apply HP; right; right; right; left; reflexivity).
  assert (NS' : ~ same_point (pt32 f32 (M2 i2)) (pt32 f32 (M2 j2))).
  { intros (A & B). apply NS. destruct P1 as (A1 & B1), P3 as (A3 & B3). split; [rewrite <- A1, <- A3|rewrite <- B1, <- B3]; assumption. }
  pose proof (den_bool (M2 i2) (M2 j2)) as DB.
  pose proof (solved_aligns _ _ (pt32 f32 (M1 i1)) (pt32 f32 (M1 j1)) NS') as AL'.
  pose proof (solved_aligns _ _ (M1 i1) (M1 j1) NS) as AL.
  destruct (M2 i2) as [x1 y1] eqn:E1. destruct (M2 j2) as [x2 y2] eqn:E2. cbn [fst snd] in DB. rewrite DB.
  destruct (Qeq_bool (x1 - x2) 0 && Qeq_bool (y1 - y2) 0)%bool eqn:Q.
  { exfalso. apply NS. apply same_point_bool. exact Q. }
  destruct (Qeq_bool (fst (pt32 f32 (x1, y1)) - _) 0 && _)%bool eqn:Q'.
  { exfalso. apply NS'. apply same_point_bool. exact Q'. }
  unfold solved in *. destruct (solve (pt32 f32 (x1, y1)) _ _ _) as [[[a' b'] c0'] c1']. destruct (solve (x1, y1) (x2, y2) _ _) as [[[a b] c0] c1].
  assert (AL2 : aligns (mkSim a' b' c0' c1') (x1, y1) (M1 i1) (x2, y2) (M1 j1)).
  { destruct AL' as ((A1 & A2) & (A3 & A4)). destruct P1 as (U1 & V1), P2 as (U2 & V2), P3 as (U3 & V3), P4 as (U4 & V4).
    unfold aligns, same_point, image in *. cbn [fst snd sm_a sm_b sm_c0 sm_c1] in *. unfold pt32 in *. cbn [fst snd] in *.
    rewrite U1, V1 in A1, A2. rewrite U2 in A1. rewrite V2 in A2. rewrite U3, V3 in A3, A4. rewrite U4 in A3. rewrite V4 in A4. repeat split; assumption. }
  destruct (aligns_unique _ _ _ _ _ _ NS AL2 AL) as (F1 & F2 & F3 & F4). cbn [sm_a sm_b sm_c0 sm_c1] in F1, F2, F3, F4.
  assert (G : forall x, x == a \/ x == b \/ x == c0 \/ x == c1 -> f32 x == x) by (intros x X; apply (HT (mkSim a b c0 c1)); assumption).
  rewrite (move_points_same (f32 a') (f32 b') (f32 c0') (f32 c1') a b c0 c1).
  - destruct (move_points a b c0 c1 ctl) as [rcu| |]; [|reflexivity|reflexivity]. cbn [bind]. destruct ctl; reflexivity.
  - rewrite G; [exact F1|left; exact F1].
  - rewrite G; [exact F2|right; left; exact F2].
  - rewrite G; [exact F3|right; right; left; exact F3].
  - rewrite G; [exact F4|right; right; right; exact F4].
Qed.

Lemma filter_same_mask f32 ctl m pct M1 M2 i1 j1 i2 j2 : same_point (M2 i2) (M2 j2) ->
  mask_filter f32 ctl m pct M1 M2 i1 j1 i2 j2 = Ok (Some false) /\ filter_rule ctl m pct M1 M2 i1 j1 i2 j2 = Ok (Qle_bool pct 0).
Proof.
  intros H. apply same_point_bool in H. pose proof (den_bool (M2 i2) (M2 j2)) as DB. unfold mask_filter, filter_rule.
  destruct (M2 i2) as [x1 y1]. destruct (M2 j2) as [x2 y2]. cbn [fst snd] in *. rewrite DB, H. split; reflexivity.
Qed.

Lemma mask_graph {E1 E2} srt (S1 : gset E1) (S2 : gset E2) d1 d2 sym1 sym2 eps M1 M2 f32 ctl m pct cf q : sorts_dists srt ->
  gs_euclid S1 = Some d1 -> gs_euclid S2 = Some d2 -> 0 < pct ->
  (forall i i' j j', (i < length (gs_elems S1))%nat -> (i' < length (gs_elems S1))%nat -> (j < length (gs_elems S2))%nat -> (j' < length (gs_elems S2))%nat ->
     (~ same_point (M2 j) (M2 j') -> exact_here f32 (M2 j) (M1 i) (M2 j') (M1 i'))
     /\ mask_filter f32 ctl m pct M1 M2 i i' j j' = Ok (Some (cf i i' j j'))) ->
  build_edges_with_filter srt new_pygraph (length (gs_elems S1)) (length (gs_elems S2)) M1 M2 d1 d2 eps ctl m pct = Ok (Ret q)
  <-> exists g, gen_build_with_condition srt (gen_init S1 S2 None None sym1 sym2 eps) cf false = Ok (Ret g) /\ gg_graph g = q.
Proof.
  intros Hs D1 D2 P H. set (new := gen_init S1 S2 None None sym1 sym2 eps).
  assert (C1 : chosen1 new = (Some d1, true)) by (unfold chosen1, new, gen_init; cbn [gg_d1 gg_S1]; rewrite D1; reflexivity).
  assert (C2 : chosen2 new = (Some d2, true)) by (unfold chosen2, new, gen_init; cbn [gg_d1 gg_S2]; rewrite D2; reflexivity).
  rewrite (gen_cond_eq srt new cf d1 true d2 true C1 C2). unfold build_edges_with_filter.
  rewrite (build_m_same srt new_pygraph (mkM (length (gs_elems S1)) d1 true) (mkM (length (gs_elems S2)) d2 true) eps (filter_rule ctl m pct M1 M2) cf Hs).
  - change (len1 new) with (length (gs_elems S1)). change (len2 new) with (length (gs_elems S2)). change (gg_graph new) with new_pygraph.
    change (gg_eps new) with eps. unfold lift. destruct (build_edges srt new_pygraph _ _ eps cf) as [[q'|x]| |]; cbn [bind]; split.
    + intros X. injection X as ->. eexists. split; reflexivity.
    + intros (g & X & Y). injection X as <-. cbn [with_graph gg_graph] in Y. subst q'. reflexivity.
    + discriminate.
    + intros (g & X & _). discriminate X.
    + discriminate.
    + intros (g & X & _). discriminate X.
    + discriminate.
    + intros (g & X & _). discriminate X.
  - cbn [m_n]. intros i i' j j' I I' J J'. destruct (H i i' j j' I I' J J') as (HX & HM).
    destruct (Qeq_bool (fst (M2 j) - fst (M2 j')) 0 && Qeq_bool (snd (M2 j) - snd (M2 j')) 0)%bool eqn:Q.
    + apply same_point_bool in Q. destruct (filter_same_mask f32 ctl m pct M1 M2 i i' j j' Q) as (A & B). rewrite B, HM in *.
      injection A as ->. f_equal. destruct (Qle_bool pct 0) eqn:L; [|reflexivity]. apply Qle_bool_iff in L. lra.
    + assert (NS : ~ same_point (M2 j) (M2 j')) by (intros X; apply same_point_bool in X; congruence).
      rewrite (mask_agrees f32 ctl m pct M1 M2 i i' j j' (HX NS) NS) in HM. destruct (filter_rule ctl m pct M1 M2 i i' j j') as [x| |]; cbn [bind] in HM; congruence.
Qed.

(** A single column at 2^24 + 1 *)
Definition far_column : mask := mkMask 1 (Z.to_nat 16777300) (fun r c => (Z.of_nat c =? 16777217)%Z).
Definition far_points (i : nat) : point := match i with O => (inject_Z 16777217, 0) | _ => (inject_Z 16777218, 0) end.
Definition near_points (i : nat) : point := match i with O => (0, 0) | _ => (1, 0) end.

(** Stated so that nobody computes the number of columns in unary *)
Lemma far_inside u v : (0 <= u)%Z -> in_mask far_column (u, v) = ((v <? 1) && (u <? 16777300) && (u =? 16777217))%Z.
Proof.
  intros U. unfold in_mask, far_column. cbn [mk_rows mk_cols mk_at fst snd].
  rewrite (Z2Nat.id 16777300), (Z2Nat.id u) by lia. reflexivity.
Qed.

Lemma far_count a b c0 c1 u v b' : move_points a b c0 c1 [(0, 0)] = Ok [(u, v)] -> (0 <= u)%Z ->
  ((v <? 1) && (u <? 16777300) && (u =? 16777217))%Z = b' ->
  (rcu <- move_points a b c0 c1 [(0, 0)];;
   Ok (Qle_bool 1 (inject_Z (Z.of_nat (length (filter (in_mask far_column) rcu))) / inject_Z (Z.of_nat (length [(0, 0)]))))) = Ok b'.
Proof.
  intros M U B. rewrite M. cbn [bind filter]. rewrite (far_inside u v U), B. destruct b'; reflexivity.
Qed.

Lemma far_answer a b c0 c1 u v b' : move_points a b c0 c1 [(0, 0)] = Ok [(u, v)] -> (0 <= u)%Z ->
  ((v <? 1) && (u <? 16777300) && (u =? 16777217))%Z = b' ->
  (rcu <- move_points a b c0 c1 [(0, 0)];;
   Ok (Some (Qle_bool 1 (inject_Z (Z.of_nat (length (filter (in_mask far_column) rcu))) / inject_Z (Z.of_nat (length [(0, 0)])))))) = Ok (Some b').
Proof.
  intros M U B. rewrite M. cbn [bind filter]. rewrite (far_inside u v U), B. destruct b'; reflexivity.
Qed.

Lemma far_filter : filter_rule [(0, 0)] far_column 1 far_points near_points 0 1 0 1 = Ok true.
Proof.
  unfold filter_rule. cbn [near_points far_points].
  change (Qeq_bool (0 - 1) 0 && Qeq_bool (0 - 0) 0)%bool with false. cbv iota. unfold solve. cbv iota.
  apply (far_count _ _ _ _ 16777217 0); [vm_compute; reflexivity|lia|reflexivity].
Qed.

Lemma far_mask f32 : like_float32 f32 -> mask_filter f32 [(0, 0)] far_column 1 far_points near_points 0 1 0 1 = Ok (Some false).
Proof.
  intros (HC & HI & HE & HN). unfold mask_filter. cbn [near_points far_points]. 
  change (Qeq_bool ((0 - 1) * (0 - 1) + (0 - 0) * (0 - 0)) 0) with false. cbv iota.
  assert (Z0 : f32 0 == 0) by (apply (HI 0%Z); lia). assert (Z1 : f32 1 == 1) by (apply (HI 1%Z); lia).
  assert (Z2 : f32 (inject_Z 16777218) == inject_Z 16777218) by (apply (HE 8388609%Z); lia).
  unfold pt32. cbn [fst snd].
  rewrite (qeq_bool_same (f32 0 - f32 1) (0 - 1)) by (rewrite Z0, Z1; reflexivity). change (Qeq_bool (0 - 1) 0) with false. cbn [andb].
  unfold solve. set (X := f32 (inject_Z 16777217)) in *. set (Y := f32 (inject_Z 16777218)) in *.
  match goal with |- context [move_points (f32 ?a) (f32 ?b) (f32 ?c0) (f32 ?c1) _] => set (A := a); set (B := b); set (C0 := c0); set (C1 := c1) end.
  assert (EA : A == Y - X) by (unfold A; rewrite Z0, Z1; field).
  assert (EB : B == 0) by (unfold B; rewrite Z0, Z1; field).
  assert (EC0 : C0 == X) by (unfold C0; rewrite Z0; ring).
  assert (EC1 : C1 == 0) by (unfold C1; rewrite Z0; ring).
  assert (FB : f32 B == 0) by (rewrite (HC _ _ EB); exact Z0).
  assert (FC1 : f32 C1 == 0) by (rewrite (HC _ _ EC1); exact Z0).
  destruct HN as [HN|HN].
  - assert (FC0 : f32 C0 == inject_Z 16777216) by (rewrite (HC _ _ EC0), (HC _ _ HN); apply HI; lia).
    assert (FA : f32 A == 2) by (rewrite (HC A (inject_Z 2)); [apply HI; lia|rewrite EA, HN, Z2; reflexivity]).
    rewrite (move_points_same _ _ _ _ 2 0 (inject_Z 16777216) 0 _ FA FB FC0 FC1).
    exact (far_answer 2 0 (inject_Z 16777216) 0 16777216 0 false eq_refl ltac:(lia) eq_refl).
  - assert (FC0 : f32 C0 == inject_Z 16777218) by (rewrite (HC _ _ EC0), (HC _ _ HN); apply (HE 8388609%Z); lia).
    assert (FA : f32 A == 0) by (rewrite (HC A 0); [exact Z0|rewrite EA, HN, Z2; reflexivity]).
    rewrite (move_points_same _ _ _ _ 0 0 (inject_Z 16777218) 0 _ FA FB FC0 FC1).
    exact (far_answer 0 0 (inject_Z 16777218) 0 16777218 0 false eq_refl ltac:(lia) eq_refl).
Qed.

(** One such conversion *)
Definition drop_one (x : Q) : Q := if Qeq_bool x (inject_Z 16777217) then inject_Z 16777216 else x.

Lemma drop_one_like : like_float32 drop_one.
Proof.
  assert (HK : forall k, k <> 16777217%Z -> drop_one (inject_Z k) == inject_Z k).
  { intros k K. unfold drop_one. destruct (Qeq_bool (inject_Z k) (inject_Z 16777217)) eqn:E; [|reflexivity].
    apply Qeq_bool_eq in E. unfold Qeq in E. cbn [Qnum Qden inject_Z] in E. lia. }
  split; [|split; [|split]].
  - intros x y E. unfold drop_one. destruct (Qeq_bool x _) eqn:A, (Qeq_bool y _) eqn:B; try reflexivity; [| |exact E].
    + apply Qeq_bool_eq in A. apply Qeq_bool_neq in B. exfalso. apply B. rewrite <- E. exact A.
    + apply Qeq_bool_eq in B. apply Qeq_bool_neq in A. exfalso. apply A. rewrite E. exact B.
  - intros k K. apply HK. lia.
  - intros k K. apply HK. lia.
  - left. reflexivity.
Qed.
