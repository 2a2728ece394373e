(** AlignAll: AlignGraph.all_correspondences from the points to the dictionaries listed (C95). *)
From Verif Require Import Base BaseFacts MBits MUtils MGraph MHeur MStack MRec MEnum MApi MExt MGen MCorr MAlign MKabsch MAlignGraph Spec SpecGen SpecCorr SpecAlign SpecKabsch ExtFacts SearchBase IsoFacts SearchProps ExtProps GenFacts GenProps CorrFacts AlignFacts KabschFacts KabschProps AlignProps.
From Coq Require Import QArith Sorting.Sorted.
Local Open Scope nat_scope.

Section All.
  Variables (F : ofield) (val : F -> Q) (S1 S2 : list (vec F)) (d1 d2 : metric) (eps : Z) (srt : list pdist -> list pdist).
  Variables (ctl : list point) (m : mask) (pct : Q).
  Hypothesis Hs : sorts_dists srt.
  Hypothesis HT : table_fits (mkM (length S2) d2 true).
  Hypothesis NC : ctl <> [].
  Hypothesis Y1 : forall k l, d1 k l = d1 l k.
  Hypothesis Y2 : forall k l, d2 k l = d2 l k.
  Variable q : pygraph.
  Hypothesis E : align_build F val srt new_pygraph S1 S2 d1 d2 eps ctl m pct = Ok (Ret q).
  Hypothesis HF : edges_fit q.
  Hypothesis LV : storage_live q.
  Let n1 := length S1.
  Let n2 := length S2.
  Variables (arccos : F -> option F) (svd : mat F -> mat F * (F * F) * mat F).

  Let described := described F svd S1 S2.

  Lemma align_drain_of lr fuel : forall p en q' en' l out, corr_drain fuel lr n2 p en = Ok (q', en', Ret l) ->
    Forall2 (fun ab x => align_dict F arccos svd S1 S2 ab = Ret x) l out ->
    align_drain F fuel arccos svd S1 S2 lr p en = Ok (q', en', Ret out).
  Proof.
    induction fuel as [|f IH]; intros p en q' en' l out D FA; [discriminate|]. cbn [corr_drain] in D. apply bind_ok in D.
    destruct D as ([[q1 en1] r] & X & D). cbn [align_drain]. unfold align_next. fold n2. rewrite X. cbn [bind].
    destruct r as [ab|x].
    - apply bind_ok in D. destruct D as ([[q2 en2] r2] & X2 & D). destruct r2 as [l2|x]; [|discriminate]. injection D as -> -> <-.
      inversion FA as [|? x ? out' DI F']; subst. rewrite DI. rewrite (IH _ _ _ _ _ _ X2 F'). reflexivity.
    - destruct x; try discriminate D. injection D as -> -> <-. inversion FA; subst. reflexivity.
  Qed.

  Lemma dicts l : (forall a b, In (a, b) l -> matching n1 n2 a b /\ a <> []) ->
    exists out, Forall2 (fun ab x => align_dict F arccos svd S1 S2 ab = Ret x) l out /\ Forall2 described l out.
  Proof.
    induction l as [|[a b] l IH]; intros H; [exists []; split; constructor|].
    destruct IH as (out & F1 & F2); [intros; apply H; right; auto|]. destruct (H a b (or_introl eq_refl)) as (MT & NA).
    destruct MT as (L & _ & _ & RA & RB). destruct (align_points F svd S1 S2 a b L NA RA RB) as (A & B & R & t & FO & EA & EB).
    exists ((A, B, Some (theta_of F arccos R, R, t)) :: out). split; constructor; auto.
    - unfold align_dict. rewrite FO. reflexivity.
    - exists A, B, (theta_of F arccos R), R, t. split; auto. split; auto. split; auto.
      intros X u s vh CV SV IS. exact (result_rotation F svd S1 S2 a b A B R t X u vh s L FO CV SV IS).
  Qed.

  Lemma align_all lr k en : 2 <= k -> all_correspondences q n1 n2 k = Ret en ->
    exists q' en' l out, (forall fuel, length out < fuel -> align_drain F fuel arccos svd S1 S2 lr q en = Ok (q', en', Ret out))
      /\ Forall2 described l out /\ NoDup l
      /\ (forall a b, In (a, b) l -> matching n1 n2 a b /\ near_matches d1 (mkM n2 d2 true) eps a b
            /\ aligned (row F val S1) (row F val S2) ctl m pct a b /\ length a = k /\ StronglySorted lt a)
      /\ (forall a b, matching n1 n2 a b -> close_matches d1 d2 eps a b -> well_aligned (row F val S1) (row F val S2) ctl m pct a b ->
            length a = k -> StronglySorted lt a -> ~ first_match_first q n2 a b -> In (a, b) l).
  Proof.
    intros K EN. pose proof (align_corr F val S1 S2 d1 d2 eps srt ctl m pct Hs HT q E) as CG.
    destruct (correspondences_listed n1 n2 q CG HF LV lr k en K EN) as (q' & en' & l & D & ND & A).
    destruct (dicts l) as (out & F1 & F2).
    { intros a b I. apply A in I. destruct I as (MT & _ & L & _). split; auto. intros ->. cbn in L. lia. }
    exists q', en', l, out. split; [|split; [exact F2|split; [exact ND|split]]].
    - intros fuel H. eapply align_drain_of; eauto. apply D. rewrite (Forall2_length _ _ _ F1). auto.
    - intros a b I. apply A in I. destruct I as (MT & CO & L & SS & _). split; auto.
      destruct (align_near F val S1 S2 d1 d2 eps srt ctl m pct Hs HT NC Y1 Y2 q E HF a b MT CO) as (NM & AL). auto.
    - intros a b MT CM WA L SS FM. apply A. split; auto. split; auto.
      apply (aligned_compatible F val S1 S2 d1 d2 eps srt ctl m pct Hs HT NC Y1 Y2 q E HF); auto.
  Qed.
End All.
