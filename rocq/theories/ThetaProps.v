(** ThetaProps: proofs for the angle returned by AlignGraph. *)
From Verif Require Import Base MGen MKabsch SpecGen SpecKabsch SpecTheta KabschFacts KabschProps KabschSamples.
From Coq Require Import Field QArith Qcanon.
Local Open Scope nat_scope.

Section Props.
  Variable F : ofield.
  Add Field FF : (f_field F).
  Notation "0" := (f0 F).
  Notation "1" := (f1 F).
  Infix "+" := (fadd F).
  Infix "*" := (fmul F).
  Infix "-" := (fsub F).
  Infix "<=" := (fle F).
  Notation "- x" := (fopp F x).

  Lemma rotation_entries R : rotation F R -> m11 R = m00 R /\ m01 R = - m10 R.
  Proof using All.
    intros [[H1 [H2 H3]] D].
    assert (E1 : m11 R = m00 R).
    { transitivity (m11 R * (m00 R * m00 R + m01 R * m01 R)); [rewrite H1; ring|].
      transitivity (m00 R * (m00 R * m11 R - m01 R * m10 R) + m01 R * (m00 R * m10 R + m01 R * m11 R)); [ring|]. rewrite D, H3. ring. }
    split; [exact E1|].
    transitivity (m01 R * (m10 R * m10 R + m11 R * m11 R)); [rewrite H2; ring|].
    transitivity (- (m10 R * (m00 R * m11 R - m01 R * m10 R)) + m11 R * (m00 R * m10 R + m01 R * m11 R)); [ring|]. rewrite D, H3. ring.
  Qed.

  Lemma same_square x y : 0 <= x -> 0 <= y -> x * x = y * y -> x = y.
  Proof using All.
    intros X Y E. assert (H : (x - y) * (x + y) = 0) by (transitivity (x * x - y * y); [ring|rewrite E; ring]).
    apply integral in H. destruct H as [H|H].
    - transitivity (x - y + y); [ring|rewrite H; ring].
    - destruct (sum_zero F x y X Y H) as [-> ->]. reflexivity.
  Qed.

  Lemma theta_entries cos sin arccos R : cos_sin F cos sin -> arc_of F cos sin arccos -> rotation F R -> arccos (m00 R) <> None ->
    m00 R = cos (theta_of F arccos R) /\ m10 R = sin (theta_of F arccos R).
  Proof using All.
    intros T C HR N. destruct (rotation_entries R HR) as [E1 E2]. destruct HR as [[H1 _] _].
    unfold theta_of. destruct (arccos (m00 R)) as [t|] eqn:E; [|congruence]. destruct (C _ _ E) as [C1 C2]. destruct (T t) as [T1 [T2 T3]].
    assert (SQ : sin t * sin t = m10 R * m10 R).
    { transitivity ((cos t * cos t + sin t * sin t) - m00 R * m00 R); [rewrite C1; ring|]. rewrite T1, <- H1, E2. ring. }
    destruct (fleb F 0 (m10 R)) eqn:L; cbn [negb].
    - apply f_leb in L. split; [symmetry; exact C1|]. symmetry. apply same_square; assumption.
    - assert (L' : m10 R <= 0).
      { destruct (f_total F (m10 R) 0) as [H|H]; [exact H|]. apply f_leb in H. congruence. }
      rewrite T2, T3. split; [symmetry; exact C1|]. apply opp_nonneg in L'.
      rewrite (same_square (sin t) (- m10 R)); [ring|exact C2|exact L'|rewrite SQ; ring].
  Qed.

  Lemma dict_format arccos svd S1 S2 ab A B th R t : align_dict F arccos svd S1 S2 ab = Ret (A, B, Some (th, R, t)) ->
    align_format F svd S1 S2 ab = Ret (A, B, Some (R, t)) /\ th = theta_of F arccos R.
  Proof using All.
    unfold align_dict. destruct (align_format F svd S1 S2 ab) as [[[A' B'] [[R' t']|]]|]; intros H; try discriminate H.
    injection H as -> -> <- -> ->. split; reflexivity.
  Qed.

  Section Result.
    Variables (cos sin : F -> F) (arccos : F -> option F).
    Variable svd : mat F -> mat F * (F * F) * mat F.
    Variables (S1 S2 : list (vec F)) (a b : list nat) (A B : list (vec F)) (th : F) (R : mat F) (t : vec F) (X u vh : mat F) (s : F * F).
    Hypothesis HL : length a = length b.
    Hypothesis HF : align_dict F arccos svd S1 S2 (a, b) = Ret (A, B, Some (th, R, t)).
    Hypothesis HX : covariance F A B X.
    Hypothesis HE : svd X = (u, s, vh).
    Hypothesis HS : is_svd F X (u, s, vh).
    Hypothesis HT : cos_sin F cos sin.
    Hypothesis HC : arc_of F cos sin arccos.
    Hypothesis HN : arccos (m00 R) <> None.

    Lemma dict_matrix : m00 R = cos th /\ m01 R = - sin th /\ m10 R = sin th /\ m11 R = cos th.
    Proof using All.
      destruct (dict_format _ _ _ _ _ _ _ _ _ _ HF) as [HA ->].
      pose proof (result_rotation F svd S1 S2 a b A B R t X u vh s HL HA HX HE HS) as HR.
      destruct (rotation_entries R HR) as [E1 E2]. destruct (theta_entries cos sin arccos R HT HC HR HN) as [E3 E4].
      repeat split; [exact E3|rewrite E2, <- E4; reflexivity|exact E4|rewrite E1; exact E3].
    Qed.

    Lemma dict_direction : forall p, moved F R t p = turned F cos sin (- th) t p.
    Proof using All.
      intros p. destruct dict_matrix as [E1 [E2 [E3 E4]]]. destruct (HT th) as [_ [T2 T3]]. unfold moved, turned.
      rewrite E1, E2, E3, E4, T2, T3. f_equal; ring.
    Qed.

    Lemma dict_other : forall p, (moved F R t p = turned F cos sin th t p <-> sin th = 0 \/ p = (0, 0)).
    Proof using All.
      intros [x y]. destruct dict_matrix as [E1 [E2 [E3 E4]]]. unfold moved, turned. rewrite E1, E2, E3, E4. cbn [fst snd].
      assert (HD : forall z : F, z + z = 0 -> z = 0).
      { intros z H. assert (H2 : (1 + 1) * z = 0) by (rewrite <- H; ring). apply integral in H2. destruct H2 as [H2|H2]; [|exact H2].
        exfalso. apply (two_zero F H2). }
      split.
      - intros E. injection E as X1 X2.
        assert (Y : y * sin th = 0).
        { apply HD. transitivity ((x * cos th + y * sin th + fst t) - (x * cos th - y * sin th + fst t)); [ring|rewrite X1; ring]. }
        assert (Z : x * sin th = 0).
        { apply HD. transitivity ((x * sin th + y * cos th + snd t) - (x * - sin th + y * cos th + snd t)); [ring|rewrite X2; ring]. }
        apply integral in Y, Z. destruct Y as [->|Y]; [|left; exact Y]. destruct Z as [->|Z]; [right; reflexivity|left; exact Z].
      - intros [->|E]; [f_equal; ring|]. injection E as -> ->. f_equal; ring.
    Qed.
  End Result.

  (** Slightly below -1 the angle is 0 *)
  Lemma theta_nan arccos : (forall x t, arccos x = Some t -> - (1) <= x) ->
    forall d, 0 <= d -> d <> 0 -> exists R : mat F, near F d (m00 R) (- (1)) /\ m01 R = 0 /\ m10 R = 0 /\ near F d (m11 R) (- (1)) /\ theta_of F arccos R = 0.
  Proof using All.
    intros H d D N. exists (mkMat (- (1) - d) 0 0 (- (1) - d)). unfold near. cbn [m00 m01 m10 m11].
    assert (E : near F d (- (1) - d) (- (1))).
    { split; [|apply le_sub; replace (d - (- (1) - (- (1) - d))) with 0 by ring; apply KabschFacts.le_refl].
      apply le_sub. replace (d - (- (1) - d - - (1))) with (d + d) by ring. apply add_nonneg; exact D. }
    repeat split; try (apply E). unfold theta_of. cbn [m00 m10]. destruct (arccos (- (1) - d)) as [t|] eqn:A; [|reflexivity].
    exfalso. apply H in A. apply N. apply f_anti; [|exact D]. apply le_sub. apply sub_le in A.
    replace (0 - d) with (- (1) - d - - (1)) by ring. exact A.
  Qed.
End Props.
