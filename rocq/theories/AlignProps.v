(** AlignProps: AlignGraph from the points to the indices and the dictionary returned (C94). *)
From Verif Require Import Base BaseFacts MBits MUtils MGraph MHeur MStack MRec MEnum MApi MExt MGen MAlign MKabsch MAlignGraph Spec SpecGen SpecAlign SpecKabsch ExtFacts SearchBase IsoFacts SearchProps ExtProps GenFacts GenProps AlignFacts KabschFacts KabschProps.
From Coq Require Import QArith.
Local Open Scope nat_scope.

Section Align.
  Variables (F : ofield) (val : F -> Q) (S1 S2 : list (vec F)) (d1 d2 : metric) (eps : Z) (srt : list pdist -> list pdist).
  Variables (ctl : list point) (m : mask) (pct : Q).
  Hypothesis Hs : sorts_dists srt.
  Let n1 := length S1.
  Let n2 := length S2.
  Let s1 := mkM n1 d1 true.
  Let s2 := mkM n2 d2 true.
  Hypothesis HT : table_fits s2.
  Hypothesis NC : ctl <> [].
  Hypothesis Y1 : forall k l, d1 k l = d1 l k.
  Hypothesis Y2 : forall k l, d2 k l = d2 l k.
  Let M1 := row F val S1.
  Let M2 := row F val S2.
  Let rule := filter_rule ctl m pct M1 M2.
  Variable q : pygraph.
  Hypothesis E : align_build F val srt new_pygraph S1 S2 d1 d2 eps ctl m pct = Ok (Ret q).
  Hypothesis HF : edges_fit q.
  Hypothesis LV : storage_live q.

  Let g1 : gset (vec F) := mkGS S1 (Some d1).
  Let g2 : gset (vec F) := mkGS S2 (Some d2).

  Lemma align_defined : build_edges srt new_pygraph s1 s2 eps (defined rule) = Ok (Ret q).
  Proof. exact (build_defined srt n1 n2 M1 M2 d1 d2 eps ctl m pct new_pygraph q E). Qed.

  Lemma align_near a b : matching n1 n2 a b -> compatible q n2 a b ->
    near_matches d1 s2 eps a b /\ aligned M1 M2 ctl m pct a b.
  Proof.
    intros MT C. destruct (near_of g1 g2 None None true true eps srt Hs d1 d2 HT Y1 Y2 (defined rule) q a b align_defined HF MT C) as (NM & PA).
    split; [exact NM|]. intros k l K K' N. cbn [declared] in PA.
    assert (R : rule (nth k a 0) (nth l a 0) (nth k b 0) (nth l b 0) = Ok true).
    { destruct (PA k l K K' N) as [P|(P & _)]; [|discriminate]. unfold defined in P. destruct (rule _ _ _ _); congruence. }
    unfold rule in R. split.
    - intros SP. destruct (filter_same_points ctl m pct M1 M2 (nth k a 0) (nth l a 0) (nth k b 0) (nth l b 0) SP) as (x & X & W).
      apply W. congruence.
    - intros t NS AL CV. destruct (filter_meaning ctl m pct M1 M2 (nth k a 0) (nth l a 0) (nth k b 0) (nth l b 0) t NC NS AL CV) as (x & X & W).
      apply W. congruence.
  Qed.

  Lemma aligned_compatible a b : matching n1 n2 a b -> close_matches d1 d2 eps a b -> well_aligned M1 M2 ctl m pct a b -> compatible q n2 a b.
  Proof.
    intros MT CM WA. apply (close_compatible g1 g2 None None true true eps srt Hs d1 d2 HT Y1 Y2 (defined rule) q a b align_defined HF MT CM).
    cbn [declared]. intros k l K K' _ [D|N]; [discriminate|]. destruct (WA k l K K' N) as (NS & t & AL & CV & EN).
    destruct (filter_meaning ctl m pct M1 M2 (nth k a 0) (nth l a 0) (nth k b 0) (nth l b 0) t NC NS AL CV) as (x & X & W).
    unfold defined, rule. rewrite X. apply W, EN.
  Qed.

  Lemma align_corr : corr_graph n1 n2 q.
  Proof. apply (cg_both n1 n2 q exact srt s1 s2 eps (defined rule)); auto; [apply exact_rises|exact align_defined]. Qed.

  Hypothesis NE : exists u v, neighbour q u v.

  Lemma align_max arccos svd e ub heur cont : permutes e -> never_late e -> n1 <= ub \/ n2 <= ub ->
    ends_with (align_get F arccos svd e q S1 S2 1 ub heur true cont true) (fun r => exists a b, snd r = Ret (inl (a, b))
      /\ matching n1 n2 a b /\ near_matches d1 s2 eps a b /\ aligned M1 M2 ctl m pct a b
      /\ forall a' b', matching n1 n2 a' b' -> close_matches d1 d2 eps a' b' -> well_aligned M1 M2 ctl m pct a' b' -> length a' <= length a).
  Proof.
    intros HP U HU. unfold align_get. apply wp_bind.
    eapply wp_mono; [apply (corr_maximum n1 n2 q align_corr HF LV NE e ub heur cont HP U HU)|].
    intros [q' r] (a & b & X & MT & CO & MX). cbn [snd] in X. subst r. apply wp_ok. cbn [snd]. exists a, b.
    destruct (align_near a b MT CO) as (NM & AL). do 4 (split; auto).
    intros a' b' MT' CM WA. apply (MX a' b'); auto. apply aligned_compatible; auto.
  Qed.

  (** Any search: the dictionary. *)
  Lemma align_any arccos svd e lb ub heur dfs cont h : history q h -> lawful e lb -> 1 <= lb ->
    ends_with (align_get F arccos svd e h S1 S2 lb ub heur dfs cont false) (fun r =>
      match snd r with
      | Ret (inr (A, B, d)) => exists a b th R t, d = Some (th, R, t) /\ elements_at S1 a A /\ elements_at S2 b B /\ lb <= length A
          /\ matching n1 n2 a b /\ near_matches d1 s2 eps a b /\ aligned M1 M2 ctl m pct a b
          /\ (forall X u s vh, covariance F A B X -> svd X = (u, s, vh) -> is_svd F X (u, s, vh) -> rotation F R)
      | Ret (inl _) => False
      | Raise x => x = EBounds
      end).
  Proof.
    intros H LA LB. unfold align_get. apply wp_bind. eapply wp_mono; [apply (correspondences n1 n2 _ align_corr HF LV NE h e lb ub heur dfs cont H LA)|].
    intros [p [[a b]|x]] R; cbn [snd] in R; apply wp_ok; cbn [snd]; auto. destruct R as (MT & CO & LE).
    destruct (align_near a b MT CO) as (NM & AL). pose proof MT as (L & _ & _ & RA & RB).
    assert (NA : a <> []) by (intros ->; cbn in LE; lia).
    destruct (align_points F svd S1 S2 a b L NA RA RB) as (A & B & R & t & FO & EA & EB). unfold align_dict. rewrite FO.
    exists a, b, (theta_of F arccos R), R, t. split; auto. split; auto. split; auto.
    split; [rewrite <- (GenProps.elements_length _ _ _ EA); auto|]. split; auto. split; auto. split; auto.
    intros X u s vh CV SV IS. exact (result_rotation F svd S1 S2 a b A B R t X u vh s L FO CV SV IS).
  Qed.
End Align.
