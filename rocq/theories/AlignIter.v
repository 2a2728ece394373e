(** AlignIter: what the iterator of AlignGraph.all_correspondences lists (C95). *)
From Verif Require Import Base BaseFacts MBits MUtils MGraph MHeur MStack MRec MEnum MApi MExt MGen MCorr MAlign MKabsch MAlignGraph MCorrIter MAlignIter Spec SpecGen SpecCorr SpecAlign SpecKabsch SearchProps AlignProps AlignAll.
From Coq Require Import QArith Sorting.Sorted.
Local Open Scope nat_scope.

Lemma align_wrapped_same (F : ofield) arccos svd S1 S2 lr fuel : forall p en,
  align_wrapped F fuel arccos svd S1 S2 lr (length S2) p en = align_drain F fuel arccos svd S1 S2 lr p en.
Proof.
  induction fuel as [|f IH]; intros p en; [reflexivity|]. cbn [align_wrapped align_drain]. unfold align_next.
  destruct (next_correspondence lr (length S2) p en) as [[[q en1] r]| |]; cbn [bind]; auto.
  destruct r as [ab|x]; [|destruct x; reflexivity]. destruct (align_dict F arccos svd S1 S2 ab) as [d|x]; [|destruct x; reflexivity].
  rewrite IH. reflexivity.
Qed.

Lemma align_iter_all : forall (F : ofield) val S1 S2 d1 d2 eps srt ctl m pct, sorts_dists srt -> table_fits (mkM (length S2) d2 true) ->
  ctl <> [] -> (forall k l, d1 k l = d1 l k) -> (forall k l, d2 k l = d2 l k) ->
  forall q, align_build F val srt new_pygraph S1 S2 d1 d2 eps ctl m pct = Ok (Ret q) -> edges_fit q -> storage_live q ->
  forall arccos svd lr k it, 2 <= k -> align_iter q S1 S2 k = Ret it ->
  exists q' en' l out, (forall fuel, length out < fuel -> align_list F fuel arccos svd S1 S2 lr q it = Ok (q', en', Ret out))
    /\ Forall2 (described F svd S1 S2) l out /\ NoDup l
    /\ (forall a b, In (a, b) l -> matching (length S1) (length S2) a b /\ near_matches d1 (mkM (length S2) d2 true) eps a b
          /\ aligned (row F val S1) (row F val S2) ctl m pct a b /\ length a = k /\ StronglySorted lt a)
    /\ (forall a b, matching (length S1) (length S2) a b -> close_matches d1 d2 eps a b ->
          well_aligned (row F val S1) (row F val S2) ctl m pct a b -> length a = k -> StronglySorted lt a ->
          ~ first_match_first q (length S2) a b -> In (a, b) l).
Proof.
  intros F val S1 S2 d1 d2 eps srt ctl m pct Hs HT NC Y1 Y2 q E HF LV arccos svd lr k it K EN.
  assert (X : all_correspondences q (length S1) (length S2) k = Ret (new_enum k) /\ it = mkCI (new_enum k) (length S1) (length S2)).
  { unfold align_iter, make_iter in EN. unfold all_correspondences. destruct (loaded q); [|discriminate]. injection EN as <-. auto. }
  destruct X as [A ->]. unfold align_list. cbn [ci_len2 ci_enum].
  destruct (align_all F val S1 S2 d1 d2 eps srt ctl m pct Hs HT NC Y1 Y2 q E HF LV arccos svd lr k _ K A) as (q' & en' & l & out & D & R).
  exists q', en', l, out. split; [|exact R]. intros fuel L. rewrite align_wrapped_same. apply D, L.
Qed.
