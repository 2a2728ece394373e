(** ContainFacts: a set contained in another is matched completely (C100). *)
From Coq Require Import Permutation.
From Verif Require Import Base BaseFacts MBits MUtils MGraph MHeur MStack MRec MEnum MApi MExt MPy MGen MAlign Spec SpecGen SpecRound SpecContain ExtFacts SearchBase IsoFacts SearchProps ExtProps GenFacts GenProps RoundFacts RoundProps GenRound.
Local Open Scope nat_scope.

Lemma seq_map_nodup (phi : nat -> nat) n : (forall k l, k < n -> l < n -> phi k = phi l -> k = l) -> NoDup (map phi (seq 0 n)).
Proof.
  intros H. assert (G : forall l, (forall k, In k l -> k < n) -> NoDup l -> NoDup (map phi l)).
  { induction l as [|x l IH]; cbn; intros R N; constructor; inversion_clear N.
    - rewrite in_map_iff. intros (y & E & I). apply H in E; auto. subst; auto.
    - apply IH; auto. }
  apply G; [|apply seq_NoDup]. intros k K. apply in_seq in K. lia.
Qed.

Lemma nth_map_seq (phi : nat -> nat) n k : k < n -> nth k (map phi (seq 0 n)) 0 = phi k.
Proof.
  intros K. rewrite (nth_indep _ 0 (phi 0)) by (rewrite map_length, seq_length; auto). rewrite map_nth, seq_nth by auto. reflexivity.
Qed.

Lemma placed_matching n1 n2 phi : placed n1 n2 phi -> matching n1 n2 (seq 0 n1) (map phi (seq 0 n1)).
Proof.
  intros (R & I). split; [rewrite map_length; auto|]. split; [apply seq_NoDup|]. split; [apply seq_map_nodup; auto|]. split.
  - intros i J. apply in_seq in J. lia.
  - intros j J. apply in_map_iff in J. destruct J as (k & <- & K). apply in_seq in K. apply R. lia.
Qed.

Lemma all_elements {E} (l : list E) a xs : elements_at l a xs -> NoDup a -> (forall i, In i a -> i < length l) -> length l <= length a -> Permutation xs l.
Proof.
  intros X N R L. assert (P : Permutation a (seq 0 (length l))).
  { apply NoDup_Permutation_bis; auto; [rewrite seq_length; auto|]. intros i I. apply in_seq. specialize (R i I). lia. }
  assert (M : map (nth_error l) a = map Some xs). { clear - X. induction X; cbn; congruence. }
  assert (S : map (nth_error l) (seq 0 (length l)) = map Some l).
  { clear. assert (G : forall pre t, l = pre ++ t -> map (nth_error l) (seq (length pre) (length t)) = map Some t).
    { intros pre t. revert pre. induction t as [|x t IH]; intros pre E0; cbn; auto. f_equal.
      - rewrite E0, nth_error_app2, Nat.sub_diag by auto. reflexivity.
      - replace (S (length pre)) with (length (pre ++ [x])) by (rewrite app_length; cbn; lia). apply IH. rewrite E0, <- app_assoc. reflexivity. }
    apply (G [] l). reflexivity. }
  apply (Permutation_map (nth_error l)) in P. rewrite M, S in P. apply Permutation_map_inv in P. destruct P as (zs & E0 & Q).
  assert (xs = zs); [|subst; symmetry; auto]. clear - E0. revert zs E0. induction xs; intros [|z zs] H; cbn in H; try discriminate; auto.
  injection H as -> H. f_equal. auto.
Qed.

Lemma contained {E1 E2} (S1 : gset E1) (S2 : gset E2) d1 d2 sym1 sym2 eps srt : sorts_dists srt -> d1 <> None \/ d2 = None ->
  forall f1 f2, wanted S1 d1 = Some f1 -> wanted S2 d2 = Some f2 -> table_fits (wanted_set S2 d2 sym2 f2) ->
  (forall k l, f1 k l = f1 l k) -> (forall k l, f2 k l = f2 l k) ->
  forall phi, 2 <= length (gs_elems S1) -> placed (length (gs_elems S1)) (length (gs_elems S2)) phi ->
  (forall k l, k < length (gs_elems S1) -> l < length (gs_elems S1) -> k <> l -> (Z.abs (f1 k l - f2 (phi k) (phi l)) < eps)%Z) ->
  forall g e ub heur cont, gen_build_edges srt (gen_init S1 S2 d1 d2 sym1 sym2 eps) = Ok (Ret g) ->
  edges_fit (gg_graph g) -> storage_live (gg_graph g) ->
  permutes e -> never_late e -> length (gs_elems S1) <= ub \/ length (gs_elems S2) <= ub ->
  ends_with (gen_get_elements e g 1 ub heur true cont) (fun r => exists xs ys a b, snd r = Ret (xs, ys)
    /\ elements_at (gs_elems S1) a xs /\ elements_at (gs_elems S2) b ys /\ matching (length (gs_elems S1)) (length (gs_elems S2)) a b
    /\ near_matches f1 (wanted_set S2 d2 sym2 f2) eps a b /\ Permutation xs (gs_elems S1)).
Proof.
  intros Hs D2 f1 f2 W1 W2 HT Y1 Y2 phi N1 PL CL g e ub heur cont B HF LV P U HU. pose proof PL as (PR & PI).
  assert (NE : exists u v, neighbour (gg_graph g) u v).
  { do 2 eexists. refine (gen_keeps S1 S2 d1 d2 sym1 sym2 eps srt Hs D2 f1 f2 W1 W2 HT g 0 1 (phi 0) (phi 1) (fun _ => Y1) (fun _ => Y2) B HF _ _ _).
    - repeat split; cbn; lia.
    - split; [apply PR; lia|]. split; [apply PR; lia|]. intros H. apply PI in H; lia.
    - apply CL; lia. }
  eapply wp_mono; [apply (search_metric S1 S2 d1 d2 sym1 sym2 eps srt Hs D2 f1 f2 W1 W2 HT Y1 Y2 g e ub heur cont B HF LV NE P U HU)|].
  intros r (xs & ys & a & b & R & X & Y & MT & NM & MX). exists xs, ys, a, b. do 5 (split; auto).
  apply (all_elements (gs_elems S1) a xs X); [apply MT|apply MT|].
  rewrite <- (seq_length (length (gs_elems S1)) 0). apply (MX _ _ (placed_matching _ _ phi PL)).
  intros k l K L N. rewrite seq_length in K, L. rewrite !seq_nth, !nth_map_seq by auto. apply CL; auto.
Qed.

Lemma contained_r {E1 E2} rnd (S1 : gset E1) (S2 : gset E2) d1 d2 sym1 sym2 eps srt : nearest rnd -> sorts_dists srt -> d1 <> None \/ d2 = None ->
  (0 <= eps)%Z -> double eps ->
  forall f1 f2, wanted S1 d1 = Some f1 -> wanted S2 d2 = Some f2 -> table_fits (wanted_set S2 d2 sym2 f2) ->
  measured (wanted_set S1 d1 sym1 f1) -> measured (wanted_set S2 d2 sym2 f2) ->
  (forall k l, f1 k l = f1 l k) -> (forall k l, f2 k l = f2 l k) ->
  forall phi, 2 <= length (gs_elems S1) -> placed (length (gs_elems S1)) (length (gs_elems S2)) phi ->
  (forall k l, k < length (gs_elems S1) -> l < length (gs_elems S1) -> k <> l -> well_inside eps (f1 k l) (f2 (phi k) (phi l))) ->
  forall g e ub heur cont, gen_build_edges_r rnd srt (gen_init S1 S2 d1 d2 sym1 sym2 eps) = Ok (Ret g) ->
  edges_fit (gg_graph g) -> storage_live (gg_graph g) ->
  permutes e -> never_late e -> length (gs_elems S1) <= ub \/ length (gs_elems S2) <= ub ->
  ends_with (gen_get_elements e g 1 ub heur true cont) (fun r => exists xs ys a b, snd r = Ret (xs, ys)
    /\ elements_at (gs_elems S1) a xs /\ elements_at (gs_elems S2) b ys /\ matching (length (gs_elems S1)) (length (gs_elems S2)) a b
    /\ about_matches f1 (wanted_set S2 d2 sym2 f2) eps a b /\ Permutation xs (gs_elems S1)).
Proof.
  intros Hn Hs D2 Pe De f1 f2 W1 W2 HT M1 M2 Y1 Y2 phi N1 PL CL g e ub heur cont B HF LV P U HU. pose proof PL as (PR & PI).
  assert (NE : exists u v, neighbour (gg_graph g) u v).
  { pose proof B as B0. rewrite (gen_metric_r rnd S1 S2 d1 d2 sym1 sym2 eps srt D2 f1 f2 W1 W2) in B0. apply lift_ret in B0. destruct B0 as (B0 & _).
    do 2 eexists. refine (metric_inside rnd srt _ _ eps Hn Hs HT Pe _ _ 0 1 (phi 0) (phi 1) M1 M2 (fun _ => Y1) (fun _ => Y2) B0 HF _ _ _).
    - repeat split; cbn; lia.
    - split; [apply PR; lia|]. split; [apply PR; lia|]. intros H. apply PI in H; lia.
    - apply CL; lia. }
  eapply wp_mono; [apply (search_metric_r rnd S1 S2 d1 d2 sym1 sym2 eps srt Hn Hs D2 Pe De f1 f2 W1 W2 HT M1 M2 Y1 Y2 g e ub heur cont B HF LV NE P U HU)|].
  intros r (xs & ys & a & b & R & X & Y & MT & NM & MX). exists xs, ys, a, b. do 5 (split; auto).
  apply (all_elements (gs_elems S1) a xs X); [apply MT|apply MT|].
  rewrite <- (seq_length (length (gs_elems S1)) 0). apply (MX _ _ (placed_matching _ _ phi PL)).
  intros k l K L N. rewrite seq_length in K, L. rewrite !seq_nth, !nth_map_seq by auto. apply CL; auto.
Qed.
