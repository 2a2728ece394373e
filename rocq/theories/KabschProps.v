(** KabschProps: what the rotation and translation of AlignGraph do to the matched points. *)
From Verif Require Import Base MGen MKabsch SpecGen SpecKabsch KabschFacts.
From Coq Require Import Field.
Local Open Scope nat_scope.

Lemma pick_elements : forall {E : Type} (l : list E) idx xs, pick_elems l idx = Ret xs -> elements_at l idx xs.
Proof.
  intros E l. induction idx as [|i r IH]; intros xs H; cbn [pick_elems] in H.
  - injection H as <-. constructor.
  - destruct (nth_error l i) as [x|] eqn:Ex; [|discriminate H]. destruct (pick_elems l r) as [ys|]; [|discriminate H].
    injection H as <-. constructor; [exact Ex|apply IH; reflexivity].
Qed.

Lemma elements_length : forall {E : Type} (l : list E) idx xs, elements_at l idx xs -> length xs = length idx.
Proof. intros E l idx xs H. unfold elements_at in H. induction H; cbn [length]; congruence. Qed.

Section Props.
  Variable F : ofield.
  Add Field FF : (f_field F).
  Notation "0" := (f0 F).
  Notation "1" := (f1 F).
  Infix "+" := (fadd F).
  Infix "*" := (fmul F).
  Infix "-" := (fsub F).
  Notation "- x" := (fopp F x).
  Infix "<=" := (fle F).

  Lemma eq_dec : forall x y : F, x = y \/ x <> y.
  Proof.
    intros x y. destruct (fleb F x y) eqn:E1; [destruct (fleb F y x) eqn:E2|].
    - left. apply f_anti; apply f_leb; assumption.
    - right. intros ->. congruence.
    - right. intros ->. assert (fleb F y y = true) by (apply f_leb, le_refl). congruence.
  Qed.

  Lemma align_parts : forall svd S1 S2 a b A B R t, length a = length b ->
    align_format F svd S1 S2 (a, b) = Ret (A, B, Some (R, t)) ->
    elements_at S1 a A /\ elements_at S2 b B /\ length A = length B /\ A <> [] /\ kabsch F svd A B = (R, t).
  Proof.
    intros svd S1 S2 a b A B R t HL H. unfold align_format in H. cbn [fst snd] in H.
    destruct (pick_elems S1 a) as [A'|] eqn:EA; [|discriminate H]. destruct (pick_elems S2 b) as [B'|] eqn:EB; [|discriminate H].
    apply pick_elements in EA, EB. destruct A' as [|x A']; [discriminate H|]. injection H as <- <- H.
    pose proof (elements_length _ _ _ EA). pose proof (elements_length _ _ _ EB).
    repeat split; [exact EA|exact EB|congruence|discriminate|congruence].
  Qed.

  Lemma align_none : forall svd S1 S2 a b, length a = length b -> a <> [] ->
    (forall i, In i a -> i < length S1) -> (forall i, In i b -> i < length S2) ->
    exists A B R t, align_format F svd S1 S2 (a, b) = Ret (A, B, Some (R, t)).
  Proof.
    assert (HP : forall (l : list (vec F)) idx, (forall i, In i idx -> i < length l) -> exists xs, pick_elems l idx = Ret xs).
    { intros l. induction idx as [|i r IH]; intros H; [exists []; reflexivity|].
      destruct IH as [xs E]; [intros j Hj; apply H; right; exact Hj|]. destruct (nth_error l i) as [x|] eqn:Ex.
      - exists (x :: xs). cbn [pick_elems]. rewrite Ex, E. reflexivity.
      - apply nth_error_None in Ex. specialize (H i (or_introl eq_refl)). lia. }
    intros svd S1 S2 a b HL Ha H1 H2. destruct (HP S1 a H1) as [A EA]. destruct (HP S2 b H2) as [B EB].
    assert (HA : A <> []). { intros ->. apply pick_elements, elements_length in EA. destruct a; [destruct (Ha eq_refl)|discriminate EA]. }
    destruct (kabsch F svd A B) as [R t] eqn:EK. exists A, B, R, t. unfold align_format. cbn [fst snd]. rewrite EA, EB, EK.
    destruct A; [destruct (HA eq_refl)|reflexivity].
  Qed.

  Lemma align_points : forall svd S1 S2 a b, length a = length b -> a <> [] ->
    (forall i, In i a -> i < length S1) -> (forall i, In i b -> i < length S2) ->
    exists A B R t, align_format F svd S1 S2 (a, b) = Ret (A, B, Some (R, t)) /\ elements_at S1 a A /\ elements_at S2 b B.
  Proof.
    intros svd S1 S2 a b HL Ha H1 H2. destruct (align_none svd S1 S2 a b HL Ha H1 H2) as [A [B [R [t E]]]]. exists A, B, R, t.
    destruct (align_parts _ _ _ _ _ _ _ _ _ HL E) as [HA [HB _]]. repeat split; assumption.
  Qed.

  Section Result.
    Variables (svd : mat F -> mat F * (F * F) * mat F) (S1 S2 : list (vec F)) (a b : list nat) (A B : list (vec F)) (R : mat F) (t : vec F).
    Variables (X u vh : mat F) (s : F * F).
    Hypothesis HL : length a = length b.
    Hypothesis HF : align_format F svd S1 S2 (a, b) = Ret (A, B, Some (R, t)).
    Hypothesis HX : covariance F A B X.
    Hypothesis HE : svd X = (u, s, vh).
    Hypothesis HS : is_svd F X (u, s, vh).

    Lemma result_parts : elements_at S1 a A /\ elements_at S2 b B /\ length A = length B /\ A <> []
      /\ X = correlation F (centred F A) (centred F B) /\ R = rotmat F u vh /\ t = shift F R A B.
    Proof using All.
      destruct (align_parts _ _ _ _ _ _ _ _ _ HL HF) as [HA [HB [HAB [HN HK]]]].
      pose proof (covariance_correlation F A B X HAB HN HX) as EX. rewrite EX in HE.
      rewrite (kabsch_parts F svd A B u s vh HE) in HK. injection HK as ER Et.
      repeat split; try assumption; [symmetry; exact ER|]. rewrite <- ER, <- Et. reflexivity.
    Qed.

    Lemma result_rotation : rotation F R.
    Proof using All.
      destruct result_parts as [_ [_ [_ [_ [_ [-> _]]]]]]. apply rotmat_rotation; apply HS.
    Qed.

    (** n times the centroid of A is sent to n times the centroid of B *)
    Lemma result_centroid : forall c d : vec F,
      over F (fun _ => 1) A * fst c = over F fst A -> over F (fun _ => 1) A * snd c = over F snd A ->
      over F (fun _ => 1) B * fst d = over F fst B -> over F (fun _ => 1) B * snd d = over F snd B ->
      moved F R t c = d.
    Proof using All.
      intros c d H1 H2 H3 H4. destruct result_parts as [_ [_ [HAB [HN [_ [_ Et]]]]]].
      rewrite !over_count, !over_total in *. rewrite <- HAB in H3, H4. pose proof (count_pos F A HN) as Hn.
      destruct (shift_drift F R A B HAB HN) as [D0 D1]. rewrite <- Et in D0, D1. unfold drift0, drift1 in D0, D1.
      unfold vec in *. rewrite <- H1, <- H2 in D0, D1. rewrite <- H3 in D0. rewrite <- H4 in D1. set (n := fnat F (length A)) in *. clearbody n.
      destruct d as [p q]. unfold moved. cbn [fst snd] in *. f_equal; apply (mul_cancel F n); try exact Hn.
      - replace (n * p) with (n * p + 0) by ring. rewrite <- D0. ring.
      - replace (n * q) with (n * q + 0) by ring. rewrite <- D1. ring.
    Qed.

    Lemma result_best : is_symmetric F vh -> forall R' t', rotation F R' -> misfit F R t A B <= misfit F R' t' A B.
    Proof using All.
      intros Hsym R' t' HR'. destruct result_parts as [_ [_ [HAB [HN [EX [ER Et]]]]]]. rewrite (meant_symmetric F u vh Hsym) in ER.
      rewrite Et, ER. apply (meant_best F A B X u s vh R' t'); assumption.
    Qed.

    (** Fitting all points without vh being symmetric *)
    Lemma result_equal : fits F R t A B -> ~ is_symmetric F vh -> all_equal F A.
    Proof using All.
      intros Hfit Hns. destruct result_parts as [_ [_ [HAB [HN [EX [ER Et]]]]]].
      assert (Hu : orthogonal F u) by apply HS. assert (Hv : orthogonal F vh) by apply HS.
      pose proof (fnat_nonneg F (length A)) as Hn0. pose proof (count_pos F A HN) as Hn.
      set (n := fnat F (length A)) in *. set (K := fst s + mdet F (mmul F u (mtr F vh)) * snd s).
      assert (HK : forall R', rotation F R' -> gain F R' X <= K) by (intros R' HR'; apply gain_rotation; assumption).
      (* the gain of R *)
      assert (Hg : gain F R X = (1 - (1 + 1) * (m10 vh * m10 vh)) * K).
      { rewrite ER, (gain_rotmat F X u s vh HS). destruct (not_symmetric F vh Hv Hns) as [E1 [E2 _]].
        destruct (orthogonal_cols F vh Hv) as [E3 _]. unfold K. set (d := mdet F (mmul F u (mtr F vh))). clearbody d.
        destruct vh as [p q r v]. unfold mmul, mtr. cbn [m00 m01 m10 m11] in *. subst v q.
        assert (Ep : p * p = 1 - r * r) by (rewrite <- E3; ring).
        transitivity ((p * p - r * r) * (fst s + d * snd s)); [ring|rewrite Ep; ring]. }
      assert (H0 : spread F A B = (1 + 1) * (n * gain F R X)).
      { pose proof (misfit_shift F R A B HAB HN (proj1 result_rotation)) as HM. rewrite <- Et, <- EX in HM. fold n in HM.
        rewrite (proj1 (fits_misfit F R t A B HAB) Hfit) in HM.
        replace (spread F A B) with (spread F A B - (1 + 1) * (n * gain F R X) + (1 + 1) * (n * gain F R X)) by ring.
        rewrite <- HM. ring. }
      assert (H1 : K <= gain F R X).
      { destruct (meant_rotation F u vh Hu Hv) as [HMo _].
        pose proof (misfit_shift F (meant F u vh) A B HAB HN HMo) as HM. rewrite <- EX, (gain_meant F X u s vh HS) in HM. fold n K in HM.
        rewrite H0 in HM. apply (le_mul_cancel F ((1 + 1) * n)).
        - apply f_mul; [apply two_nonneg|exact Hn0].
        - intros E. destruct (integral F _ _ E) as [E1|E1]; [exact (two_zero F E1)|exact (Hn E1)].
        - apply le_sub. replace ((1 + 1) * n * gain F R X - (1 + 1) * n * K) with ((1 + 1) * (n * gain F R X) - (1 + 1) * (n * K)) by ring.
          rewrite <- HM. apply f_mul; [exact Hn0|apply misfit_nonneg]. }
      assert (HK0 : 0 <= K).
      { (* a rotation and its opposite *)
        pose proof (HK _ (one_rotation F)) as Ha. pose proof (HK _ (mopp_rotation F _ (one_rotation F))) as Hb. rewrite gain_opp in Hb.
        destruct (f_total F 0 (gain F (one F) X)) as [Hc|Hc]; [apply (f_trans F _ _ _ Hc Ha)|apply (f_trans F _ _ _ (opp_nonneg F _ Hc) Hb)]. }
      assert (EK : K = 0).
      { rewrite Hg in H1. apply sub_le in H1. replace ((1 - (1 + 1) * (m10 vh * m10 vh)) * K - K) with (0 - (1 + 1) * (m10 vh * m10 vh) * K) in H1 by ring.
        apply le_sub in H1. assert (H2 : 0 <= (1 + 1) * (m10 vh * m10 vh) * K) by (apply f_mul; [apply f_mul; [apply two_nonneg|apply square_nonneg]|exact HK0]).
        pose proof (f_anti F _ _ H1 H2) as E. destruct (integral F _ _ E) as [E1|E1]; [|exact E1].
        destruct (integral F _ _ E1) as [E2|E2]; [destruct (two_zero F E2)|]. apply square_zero in E2.
        destruct (not_symmetric F vh Hv Hns) as [_ [_ E3]]. destruct (E3 E2). }
      assert (Hz : forall R', rotation F R' -> gain F R' X = 0).
      { intros R' HR'. pose proof (HK _ HR') as Ha. pose proof (HK _ (mopp_rotation F _ HR')) as Hb. rewrite gain_opp in Hb. rewrite EK in Ha, Hb.
        apply f_anti; [exact Ha|]. apply opp_nonneg in Hb. replace (- - gain F R' X) with (gain F R' X) in Hb by ring. exact Hb. }
      assert (Hany : forall R', rotation F R' -> fits F R' (shift F R' A B) A B).
      { intros R' HR'. apply fits_misfit; [exact HAB|]. pose proof (misfit_shift F R' A B HAB HN (proj1 HR')) as HM. rewrite <- EX, H0, (Hz R' HR'), (Hz R result_rotation) in HM. fold n in HM.
        replace ((1 + 1) * (n * 0) - (1 + 1) * (n * 0)) with 0 in HM by ring.
        destruct (integral F _ _ HM) as [E|E]; [destruct (Hn E)|exact E]. }
      apply (fits_both F A B); apply Hany; [apply one_rotation|apply mopp_rotation, one_rotation].
    Qed.

    Lemma result_exact : forall R0 t0, rotation F R0 -> fits F R0 t0 A B -> (fits F R t A B <-> is_symmetric F vh \/ all_equal F A).
    Proof using All.
      intros R0 t0 HR0 Hfit0. destruct result_parts as [_ [_ [HAB [HN [EX [ER Et]]]]]]. split.
      - intros Hfit. destruct (eq_dec (m01 vh) (m10 vh)) as [E|E]; [left; exact E|right]. apply result_equal; assumption.
      - intros [Hsym|Heq].
        + apply fits_misfit; [exact HAB|]. apply f_anti; [|apply misfit_nonneg].
          rewrite <- (proj1 (fits_misfit F R0 t0 A B HAB) Hfit0). apply result_best; assumption.
        + rewrite Et. apply equal_fits; try assumption. intros x y Hx Hy. unfold fits in Hfit0. rewrite Hfit0 in Hx, Hy.
          apply in_map_iff in Hx, Hy. destruct Hx as [x0 [<- Hx]]. destruct Hy as [y0 [<- Hy]]. rewrite (Heq x0 y0 Hx Hy). reflexivity.
    Qed.
  End Result.
End Props.
