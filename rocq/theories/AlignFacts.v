(** AlignFacts: the mask filter. *)
From Verif Require Import Base BaseFacts MBits MUtils MGraph MApi MExt MGen MAlign Spec SpecGen FindTwo ExtFacts ExtProps GenFacts.
From Coq Require Import QArith Qround Lqa Setoid.
Local Open Scope Q_scope.

Lemma square_pos x : ~ x == 0 -> 0 < x * x.
Proof. intros H. destruct (Q_dec x 0) as [[L|G]|E]; [nra|nra|tauto]. Qed.

Lemma den_pos (s1 s2 : point) : ~ same_point s1 s2 ->
  ~ (fst s1 - fst s2) * (fst s1 - fst s2) + (snd s1 - snd s2) * (snd s1 - snd s2) == 0.
Proof.
  intros H E. assert (SQ : forall z, 0 <= z * z) by (intros z; destruct (Qeq_dec z 0) as [Z|Z]; [rewrite Z; lra|apply square_pos in Z; lra]).
  pose proof (SQ (fst s1 - fst s2)) as P1. pose proof (SQ (snd s1 - snd s2)) as P2.
  destruct (Qeq_dec (fst s1 - fst s2) 0) as [X|X]; [destruct (Qeq_dec (snd s1 - snd s2) 0) as [Y|Y]|].
  - apply H. split; lra.
  - apply square_pos in Y. lra.
  - apply square_pos in X. lra.
Qed.

Definition solved (s1 s2 t1 t2 : point) : similarity := let '(a, b, c0, c1) := solve s1 s2 t1 t2 in mkSim a b c0 c1.

Lemma solved_aligns s1 s2 t1 t2 : ~ same_point s1 s2 -> aligns (solved s1 s2 t1 t2) s1 t1 s2 t2.
Proof.
  intros H. apply den_pos in H. destruct s1 as [x1 y1], s2 as [x2 y2], t1 as [x3 y3], t2 as [x4 y4].
  unfold aligns, same_point, image, solved, solve. cbn [fst snd sm_a sm_b sm_c0 sm_c1] in *. repeat split; field; exact H.
Qed.

Lemma aligns_unique t t' s1 s2 d1 d2 : ~ same_point s1 s2 -> aligns t s1 d1 s2 d2 -> aligns t' s1 d1 s2 d2 ->
  sm_a t == sm_a t' /\ sm_b t == sm_b t' /\ sm_c0 t == sm_c0 t' /\ sm_c1 t == sm_c1 t'.
Proof.
  intros H ((P1 & P2) & (P3 & P4)) ((R1 & R2) & (R3 & R4)). apply den_pos in H.
  destruct s1 as [x1 y1], s2 as [x2 y2], t as [a b c0 c1], t' as [a' b' c0' c1']. unfold image in *. cbn [fst snd sm_a sm_b sm_c0 sm_c1] in *.
  set (dx := x1 - x2) in *. set (dy := y1 - y2) in *.
  assert (U : (a - a') * dx - (b - b') * dy == 0) by (unfold dx, dy; lra).
  assert (V : (b - b') * dx + (a - a') * dy == 0) by (unfold dx, dy; lra).
  assert (A : (a - a') * (dx * dx + dy * dy) == 0).
  { transitivity (((a - a') * dx - (b - b') * dy) * dx + ((b - b') * dx + (a - a') * dy) * dy); [ring|]. rewrite U, V. ring. }
  assert (B : (b - b') * (dx * dx + dy * dy) == 0).
  { transitivity (((b - b') * dx + (a - a') * dy) * dx - ((a - a') * dx - (b - b') * dy) * dy); [ring|]. rewrite U, V. ring. }
  apply Qmult_integral in A. destruct A as [A|A]; [|tauto]. apply Qmult_integral in B. destruct B as [B|B]; [|tauto].
  assert (EA : a == a') by lra. assert (EB : b == b') by lra. split; auto. split; auto. rewrite EA, EB in P1, P2. split; lra.
Qed.

Lemma image_unique t t' s1 s2 d1 d2 s : ~ same_point s1 s2 -> aligns t s1 d1 s2 d2 -> aligns t' s1 d1 s2 d2 -> same_point (image t s) (image t' s).
Proof.
  intros H A B. destruct (aligns_unique t t' s1 s2 d1 d2 H A B) as (E1 & E2 & E3 & E4). unfold same_point, image. cbn [fst snd].
  rewrite E1, E2, E3, E4. split; reflexivity.
Qed.

Lemma inside_same m s s' : same_point s s' -> inside m s = inside m s'.
Proof. intros (E1 & E2). unfold inside. rewrite (Qfloor_comp _ _ E1), (Qfloor_comp _ _ E2). reflexivity. Qed.

(** ** The conversion *)
Lemma to_u64_floor q : 0 <= q -> q < inject_Z 18446744073709551616 -> to_u64 q = Ok (Qfloor q) /\ (0 <= Qfloor q)%Z.
Proof.
  intros H0 H1. unfold to_u64. cbv zeta. destruct q as [n d]. cbn [Qnum Qden].
  unfold Qle, Qlt in *. cbn [Qnum Qden inject_Z] in *. rewrite Z.mul_1_r in *. cbn [Z.mul] in H0.
  assert (Q : Z.quot n (Zpos d) = Qfloor (n # d)) by (cbn; apply Z.quot_div_nonneg; lia). rewrite Q.
  assert (L : (0 <= Qfloor (n # d))%Z) by (cbn; apply Z.div_pos; lia).
  assert (U : (Qfloor (n # d) < 18446744073709551616)%Z) by (cbn; apply Z.div_lt_upper_bound; lia).
  destruct (Z.ltb_spec (Qfloor (n # d)) 0); [lia|]. destruct (Z.leb_spec 18446744073709551616 (Qfloor (n # d))); [lia|]. auto.
Qed.

Lemma to_u64_low q : q <= - inject_Z 1 -> to_u64 q = UB BadCast.
Proof.
  intros H. unfold to_u64. cbv zeta. destruct q as [n d]. unfold Qle in H. cbn [Qnum Qden inject_Z Qopp] in *.
  destruct (Z.ltb_spec (Z.quot n (Zpos d)) 0) as [|G]; auto. exfalso.
  assert (E : (- (Z.quot (- n) (Zpos d)) = Z.quot n (Zpos d))%Z) by (rewrite Z.quot_opp_l by lia; lia).
  rewrite Z.quot_div_nonneg in E by lia. assert (1 <= (- n) / Zpos d)%Z by (apply Z.div_le_lower_bound; lia). lia.
Qed.

Lemma to_u64_high q : inject_Z 18446744073709551616 <= q -> to_u64 q = UB BadCast.
Proof.
  intros H. unfold to_u64. cbv zeta. destruct q as [n d]. unfold Qle in H. cbn [Qnum Qden inject_Z] in *. rewrite Z.mul_1_r in H.
  rewrite Z.quot_div_nonneg by lia. assert (18446744073709551616 <= n / Zpos d)%Z by (apply Z.div_le_lower_bound; lia).
  destruct (Z.leb_spec 18446744073709551616 (n / Zpos d)); [|lia]. rewrite Bool.orb_true_r. reflexivity.
Qed.

Lemma moved t ctl : (forall s, In s ctl -> on_canvas (image t s)) -> exists rcu,
  move_points (sm_a t) (sm_b t) (sm_c0 t) (sm_c1 t) ctl = Ok rcu
  /\ forall m, map (in_mask m) rcu = map (fun s => inside m (image t s)) ctl.
Proof.
  induction ctl as [|[x y] ctl IH]; intros H; [exists []; auto|].
  destruct IH as (l & E & M); [intros; apply H; right; auto|]. cbn [move_points].
  destruct (H (x, y) (or_introl eq_refl)) as (A & B & C & D). unfold image in A, B, C, D. cbn [fst snd] in A, B, C, D.
  destruct (to_u64_floor _ A B) as (E1 & P1). destruct (to_u64_floor _ C D) as (E2 & P2). rewrite E1, E2, E. cbn [bind].
  eexists. split; [reflexivity|]. intros m. cbn [map]. f_equal; auto. unfold in_mask, inside, image. cbn [fst snd].
  destruct (Z.leb_spec 0 (Qfloor (sm_a t * x - sm_b t * y + sm_c0 t))); [|lia].
  destruct (Z.leb_spec 0 (Qfloor (sm_b t * x + sm_a t * y + sm_c1 t))); [|lia]. cbn [andb]. rewrite !Bool.andb_true_r.
  f_equal. apply Bool.andb_comm.
Qed.

Lemma filter_length_map {A B} (f : A -> bool) (g : B -> bool) l l' : map f l = map g l' -> length (filter f l) = length (filter g l').
Proof.
  revert l'. induction l as [|x l IH]; intros [|y l'] H; cbn [map] in H; try discriminate; auto.
  injection H as H1 H2. cbn [filter]. rewrite H1. destruct (g y); cbn [length]; auto.
Qed.

Lemma percent pct k n : (0 < n)%nat -> (Qle_bool pct (inject_Z (Z.of_nat k) / inject_Z (Z.of_nat n)) = true
  <-> pct * inject_Z (Z.of_nat n) <= inject_Z (Z.of_nat k)).
Proof.
  intros H. assert (P : 0 < inject_Z (Z.of_nat n)) by (change 0 with (inject_Z 0); rewrite <- Zlt_Qlt; lia).
  rewrite Qle_bool_iff. split; intros L.
  - apply (Qmult_le_compat_r _ _ (inject_Z (Z.of_nat n))) in L; [|lra].
    assert (E : inject_Z (Z.of_nat k) / inject_Z (Z.of_nat n) * inject_Z (Z.of_nat n) == inject_Z (Z.of_nat k)) by (field; lra). lra.
  - apply Qle_shift_div_l; auto.
Qed.

Lemma filter_meaning ctl m pct M1 M2 i1 j1 i2 j2 t : ctl <> [] -> ~ same_point (M2 i2) (M2 j2) ->
  aligns t (M2 i2) (M1 i1) (M2 j2) (M1 j1) -> (forall s, In s ctl -> on_canvas (image t s)) ->
  exists x, filter_rule ctl m pct M1 M2 i1 j1 i2 j2 = Ok x /\ (x = true <-> enough ctl m pct t).
Proof.
  intros NE NS AL CV. pose proof (solved_aligns _ _ (M1 i1) (M1 j1) NS) as AL'. unfold solved in AL'. unfold filter_rule.
  destruct (M2 i2) as [x1 y1] eqn:E1. destruct (M2 j2) as [x2 y2] eqn:E2.
  assert (Q : Qeq_bool (x1 - x2) 0 && Qeq_bool (y1 - y2) 0 = false).
  { destruct (_ && _) eqn:Q; auto. apply andb_prop in Q. destruct Q as (Q1 & Q2). apply Qeq_bool_eq in Q1, Q2.
    exfalso. apply NS. split; cbn [fst snd]; lra. }
  rewrite Q. destruct (solve (x1, y1) (x2, y2) (M1 i1) (M1 j1)) as [[[a b] c0] c1]. set (t' := mkSim a b c0 c1) in *.
  assert (IM : forall s, same_point (image t' s) (image t s)) by (intros s; eapply image_unique; eauto).
  destruct (moved t' ctl) as (rcu & E & MM).
  { intros s I. destruct (IM s) as (I1 & I2). destruct (CV s I) as (A & B & C & D). unfold on_canvas. rewrite I1, I2. auto. }
  unfold t' in E. cbn [sm_a sm_b sm_c0 sm_c1] in E. rewrite E. cbn [bind]. destruct ctl as [|s ctl]; [congruence|]. eexists. split; [reflexivity|].
  unfold enough. rewrite percent by (cbn; lia).
  assert (L : length (filter (in_mask m) rcu) = length (filter (fun s => inside m (image t s)) (s :: ctl))).
  { apply filter_length_map. rewrite MM. apply map_ext. intros s'. apply inside_same, IM. }
  rewrite L. reflexivity.
Qed.

(** ** The graph *)
Section Filter.
  Variables (srt : list pdist -> list pdist) (n1 n2 : nat) (M1 M2 : nat -> point) (d1 d2 : metric) (eps : Z).
  Variables (ctl : list point) (m : mask) (pct : Q).
  Hypothesis Hs : sorts_dists srt.
  Hypothesis HT : table_fits (mkM n2 d2 true).
  Let build p := build_edges_with_filter srt p n1 n2 M1 M2 d1 d2 eps ctl m pct.

  Lemma build_defined p q : build p = Ok (Ret q) ->
    build_edges srt p (mkM n1 d1 true) (mkM n2 d2 true) eps (defined (filter_rule ctl m pct M1 M2)) = Ok (Ret q).
  Proof. apply build_m_sim. Qed.

  Lemma filter_obeyed p q i i' j j' : build p = Ok (Ret q) -> edges_fit q -> (i < i')%nat -> (j < n2)%nat -> (j' < n2)%nat ->
    neighbour q (vid n2 i j) (vid n2 i' j') -> filter_rule ctl m pct M1 M2 i i' j j' = Ok true.
  Proof.
    intros E HF I J J' N. apply build_defined in E.
    destruct (both_obeys_r exact srt _ _ eps exact_rises Hs HT _ p q i i' j j' E HF J J' N) as (_ & F). specialize (F eq_refl I). unfold defined in F.
    destruct (filter_rule ctl m pct M1 M2 i i' j j'); congruence.
  Qed.

  Lemma filter_kept p q i i' j j' : (forall k l, d1 k l = d1 l k) -> (forall k l, d2 k l = d2 l k) ->
    build p = Ok (Ret q) -> edges_fit q -> (i < i' < n1)%nat -> (j < n2)%nat -> (j' < n2)%nat -> j <> j' ->
    (Z.abs (d1 i i' - d2 j j') < eps)%Z -> filter_rule ctl m pct M1 M2 i i' j j' = Ok true ->
    neighbour q (vid n2 i j) (vid n2 i' j').
  Proof.
    intros Y1 Y2 E HF I J J' N D F. apply build_defined in E.
    apply (both_keeps srt (mkM n1 d1 true) (mkM n2 d2 true) eps Hs HT (defined (filter_rule ctl m pct M1 M2)) p q i i' j j'); auto.
    - intros _. exact Y1.
    - intros _. exact Y2.
    - split; [cbn; lia|]. split; cbn; lia.
    - split; [cbn; lia|]. split; cbn; lia.
    - intros _. unfold defined. rewrite F. reflexivity.
    - cbn [m_sym]. lia.
  Qed.

  (** The filter computes a value for any four elements: the build succeeds. *)
  Lemma filter_total p : fits (n1 * n2 + 1 + 4 * (n1 * n1 * (n2 * n2))) -> (1 <= n1)%nat -> (1 <= n2)%nat -> n2 <> 1%nat \/ (n1 < 2)%nat ->
    (forall i i' j j', (i < n1)%nat -> (i' < n1)%nat -> (j < n2)%nat -> (j' < n2)%nat -> exists x, filter_rule ctl m pct M1 M2 i i' j j' = Ok x) ->
    exists q, build p = Ok (Ret q) /\ edges_fit q.
  Proof.
    intros HF P1 P2 HN D. destruct (build_total srt (mkM n1 d1 true) (mkM n2 d2 true) eps (defined (filter_rule ctl m pct M1 M2)) Hs exact exact_rises HT p P1 P2 ltac:(cbn [m_n]; lia) HF) as (q & E & F).
    exists q. split; auto. unfold build, build_edges_with_filter. rewrite (build_m_same _ _ _ _ _ _ (defined (filter_rule ctl m pct M1 M2))); auto.
    cbn [m_n]. intros i i' j j' I I' J J'. unfold defined. destruct (D i i' j j' I I' J J') as (x & ->). reflexivity.
  Qed.
End Filter.

Lemma filter_graph srt n1 n2 M1 M2 d1 d2 eps ctl m pct : sorts_dists srt -> table_fits (mkM n2 d2 true) ->
  (forall k l, d1 k l = d1 l k) -> (forall k l, d2 k l = d2 l k) -> ctl <> [] ->
  forall p q i i' j j' t, build_edges_with_filter srt p n1 n2 M1 M2 d1 d2 eps ctl m pct = Ok (Ret q) -> edges_fit q ->
  (i < i' < n1)%nat -> (j < n2)%nat -> (j' < n2)%nat -> ~ same_point (M2 j) (M2 j') ->
  aligns t (M2 j) (M1 i) (M2 j') (M1 i') -> (forall s, In s ctl -> on_canvas (image t s)) ->
  (neighbour q (vid n2 i j) (vid n2 i' j') -> enough ctl m pct t)
  /\ ((Z.abs (d1 i i' - d2 j j') < eps)%Z -> enough ctl m pct t -> neighbour q (vid n2 i j) (vid n2 i' j')).
Proof.
  intros Hs HT Y1 Y2 NE p q i i' j j' t E HF I J J' NS AL CV.
  destruct (filter_meaning ctl m pct M1 M2 i i' j j' t NE NS AL CV) as (x & X & W). split.
  - intros N. apply W. pose proof (filter_obeyed srt n1 n2 M1 M2 d1 d2 eps ctl m pct Hs HT p q i i' j j' E HF ltac:(lia) J J' N). congruence.
  - intros D EN. apply W in EN. subst x.
    apply (filter_kept srt n1 n2 M1 M2 d1 d2 eps ctl m pct Hs HT p q i i' j j' Y1 Y2 E HF I J J'); auto.
    intros ->. apply NS. split; reflexivity.
Qed.

Lemma transform_exists s1 s2 d1 d2 : ~ same_point s1 s2 -> exists t, aligns t s1 d1 s2 d2
  /\ forall t', aligns t' s1 d1 s2 d2 -> forall s, same_point (image t' s) (image t s).
Proof.
  intros H. pose proof (solved_aligns s1 s2 d1 d2 H) as A. exists (solved s1 s2 d1 d2). split; auto.
  intros t' A' s. eapply image_unique; eauto.
Qed.

Lemma outside_undefined ctl m pct M1 M2 i1 j1 i2 j2 t s : ~ same_point (M2 i2) (M2 j2) ->
  aligns t (M2 i2) (M1 i1) (M2 j2) (M1 j1) -> In s ctl ->
  (let x := image t s in fst x <= - inject_Z 1 \/ inject_Z 18446744073709551616 <= fst x
                         \/ snd x <= - inject_Z 1 \/ inject_Z 18446744073709551616 <= snd x) ->
  filter_rule ctl m pct M1 M2 i1 j1 i2 j2 = UB BadCast.
Proof.
  intros NS AL IN OUT. pose proof (solved_aligns _ _ (M1 i1) (M1 j1) NS) as AL'. unfold solved in AL'. unfold filter_rule.
  destruct (M2 i2) as [x1 y1] eqn:E1. destruct (M2 j2) as [x2 y2] eqn:E2.
  assert (Q : Qeq_bool (x1 - x2) 0 && Qeq_bool (y1 - y2) 0 = false).
  { destruct (_ && _) eqn:Q; auto. apply andb_prop in Q. destruct Q as (Q1 & Q2). apply Qeq_bool_eq in Q1, Q2.
    exfalso. apply NS. split; cbn [fst snd]; lra. }
  rewrite Q. destruct (solve (x1, y1) (x2, y2) (M1 i1) (M1 j1)) as [[[a b] c0] c1].
  assert (IM : same_point (image (mkSim a b c0 c1) s) (image t s)) by (eapply image_unique; eauto).
  cbv zeta in OUT. destruct IM as (I1 & I2). rewrite <- I1, <- I2 in OUT. unfold image in OUT. cbn [fst snd sm_a sm_b sm_c0 sm_c1] in OUT.
  assert (MV : move_points a b c0 c1 ctl = UB BadCast); [|rewrite MV; reflexivity].
  assert (BC : forall q, to_u64 q = UB BadCast \/ exists z, to_u64 q = Ok z).
  { intros q. unfold to_u64. cbv zeta. destruct (_ || _); eauto. }
  clear - IN OUT BC. induction ctl as [|[x y] ctl IH]; [destruct IN|]. cbn [move_points]. destruct IN as [<-|IN].
  - cbn [fst snd] in OUT. destruct OUT as [O|[O|[O|O]]].
    + rewrite (to_u64_low _ O). reflexivity.
    + rewrite (to_u64_high _ O). reflexivity.
    + destruct (BC (a * x - b * y + c0)) as [->|(z & ->)]; auto. cbn [bind]. rewrite (to_u64_low _ O). reflexivity.
    + destruct (BC (a * x - b * y + c0)) as [->|(z & ->)]; auto. cbn [bind]. rewrite (to_u64_high _ O). reflexivity.
  - destruct (BC (a * x - b * y + c0)) as [->|(z & ->)]; auto. cbn [bind].
    destruct (BC (b * x + a * y + c1)) as [->|(w & ->)]; auto. cbn [bind]. rewrite (IH IN). reflexivity.
Qed.

Lemma filter_same_points ctl m pct M1 M2 i1 j1 i2 j2 : same_point (M2 i2) (M2 j2) ->
  exists x, filter_rule ctl m pct M1 M2 i1 j1 i2 j2 = Ok x /\ (x = true <-> pct <= 0).
Proof.
  intros (E1 & E2). unfold filter_rule. destruct (M2 i2) as [x1 y1], (M2 j2) as [x2 y2]. cbn [fst snd] in *.
  assert (Q1 : Qeq_bool (x1 - x2) 0 = true) by (apply Qeq_bool_iff; lra).
  assert (Q2 : Qeq_bool (y1 - y2) 0 = true) by (apply Qeq_bool_iff; lra). rewrite Q1, Q2. cbn [andb].
  eexists. split; [reflexivity|]. apply Qle_bool_iff.
Qed.
