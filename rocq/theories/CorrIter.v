(** CorrIter: the indices that the iterator of all_correspondences lists (C90). *)
From Verif Require Import Base MBits MUtils MGraph MHeur MStack MRec MEnum MApi MExt MGen MCorr MCorrIter Spec SpecDec SpecGen SpecCorr SearchProps ExtFacts ExtProps GenProps CorrFacts MNW MNWEnum MNWApi MNWCorr SpecNW SpecKeep SpecRound NWRoundFacts NWProps KeepProps.
From Coq Require Import Sorting.Sorted.
Local Open Scope nat_scope.

(** With the length of the second set, the steps are those of [gen_drain]. *)
Lemma wrapped_same {E1 E2 : Type} lr fuel : forall (g : gengraph E1 E2) en, wrapped_drain fuel lr (len2 g) g en = gen_drain fuel lr g en.
Proof.
  induction fuel as [|f IH]; intros g en; [reflexivity|]. cbn [wrapped_drain gen_drain]. unfold gen_next_elements, gen_next_indices.
  destruct (next_correspondence lr (len2 g) (gg_graph g) en) as [[[p en1] r]| |]; cbn [bind]; auto.
  destruct r as [ab|x]; [|destruct x; reflexivity]. destruct (gen_format (with_graph g p) ab) as [xy|x]; [|destruct x; reflexivity].
  change (len2 g) with (len2 (with_graph g p)). rewrite IH. reflexivity.
Qed.

Section IterList.
  Context {E1 E2 : Type}.
  Variables (S1 : gset E1) (S2 : gset E2) (d1 d2 : option metric) (sym1 sym2 : bool) (eps : Z) (srt : list pdist -> list pdist).
  Let n1 := length (gs_elems S1).
  Let n2 := length (gs_elems S2).
  Hypothesis Hs : sorts_dists srt.
  Hypothesis D2 : d1 <> None \/ d2 = None.
  Variables f1 f2 : nat -> nat -> Z.
  Hypothesis W1 : wanted S1 d1 = Some f1.
  Hypothesis W2 : wanted S2 d2 = Some f2.
  Hypothesis HT : table_fits (wanted_set S2 d2 sym2 f2).
  Hypothesis Y1 : forall k l, f1 k l = f1 l k.
  Hypothesis Y2 : forall k l, f2 k l = f2 l k.

  Lemma indices_listed g f lr k it : gen_build_with_condition srt (gen_init S1 S2 d1 d2 sym1 sym2 eps) f false = Ok (Ret g) ->
    edges_fit (gg_graph g) -> storage_live (gg_graph g) -> 2 <= k -> gen_iter g k = Ret it ->
    exists q' en' l, (forall fuel, length l < fuel -> iter_list fuel lr (gg_graph g) it = Ok (q', en', Ret l)) /\ NoDup l
      /\ (forall a b, In (a, b) l -> matching n1 n2 a b /\ near_matches f1 (wanted_set S2 d2 sym2 f2) eps a b
            /\ passed (declared d1 sym1) f a b /\ length a = k /\ StronglySorted lt a)
      /\ (forall a b, matching n1 n2 a b -> close_matches f1 f2 eps a b -> allowed (declared d1 sym1) f a b -> length a = k ->
            StronglySorted lt a -> ~ first_match_first (gg_graph g) n2 a b -> In (a, b) l).
  Proof.
    intros E HF LV K EN. rewrite (gen_both S1 S2 d1 d2 sym1 sym2 eps srt D2 f1 f2 W1 W2) in E. apply lift_ret in E. destruct E as (E & G2 & G3).
    set (s1 := wanted_set S1 d1 sym1 f1) in *. set (s2 := wanted_set S2 d2 sym2 f2) in *.
    assert (CG : corr_graph n1 n2 (gg_graph g)) by (apply (cg_both n1 n2 _ exact srt s1 s2 eps f); auto; apply exact_rises).
    unfold gen_iter, make_iter, len1, len2 in EN. rewrite G2, G3 in EN. fold n1 n2 in EN.
    assert (AC : all_correspondences (gg_graph g) n1 n2 k = Ret (new_enum k)) by (unfold all_correspondences; destruct (loaded (gg_graph g)); [auto|discriminate]).
    destruct (loaded (gg_graph g)); [|discriminate]. injection EN as <-. unfold iter_list. cbn [ci_len2 ci_enum].
    destruct (correspondences_listed n1 n2 _ CG HF LV lr k _ K AC) as (q' & en' & l & D & ND & A).
    exists q', en', l. split; [exact D|]. split; [exact ND|]. split.
    - intros a b I. apply A in I. destruct I as (MT & CO & L & SS & _). split; auto.
      destruct (near_of S1 S2 d1 d2 sym1 sym2 eps srt Hs f1 f2 HT Y1 Y2 f _ a b E HF MT CO) as (NM & PA). auto.
    - intros a b MT CM AL L SS FM. apply A. split; auto. split; auto.
      eapply (close_compatible S1 S2 d1 d2 sym1 sym2 eps srt Hs f1 f2 HT Y1 Y2); eauto.
  Qed.

  Lemma iter_elements_listed g f lr k it : gen_build_with_condition srt (gen_init S1 S2 d1 d2 sym1 sym2 eps) f false = Ok (Ret g) ->
    edges_fit (gg_graph g) -> storage_live (gg_graph g) -> 2 <= k -> gen_iter g k = Ret it ->
    exists g' en' l out, (forall fuel, length out < fuel -> wrapped_list fuel lr g it = Ok (g', en', Ret out))
      /\ Forall2 (fun ab xy => elements_at (gs_elems S1) (fst ab) (fst xy) /\ elements_at (gs_elems S2) (snd ab) (snd xy)) l out
      /\ NoDup l
      /\ (forall a b, In (a, b) l -> matching n1 n2 a b /\ near_matches f1 (wanted_set S2 d2 sym2 f2) eps a b
            /\ passed (declared d1 sym1) f a b /\ length a = k /\ StronglySorted lt a)
      /\ (forall a b, matching n1 n2 a b -> close_matches f1 f2 eps a b -> allowed (declared d1 sym1) f a b -> length a = k ->
            StronglySorted lt a -> ~ first_match_first (gg_graph g) n2 a b -> In (a, b) l).
  Proof.
    intros E HF LV K EN.
    assert (X : gen_all_correspondences g k = Ret (new_enum k) /\ it = mkCI (new_enum k) (len1 g) (len2 g)).
    { unfold gen_iter, make_iter in EN. unfold gen_all_correspondences, all_correspondences. destruct (loaded (gg_graph g)); [|discriminate].
      injection EN as <-. auto. }
    destruct X as [A ->]. unfold wrapped_list. cbn [ci_len2 ci_enum].
    destruct (elements_listed S1 S2 d1 d2 sym1 sym2 eps srt Hs D2 f1 f2 W1 W2 HT Y1 Y2 g f lr k _ E HF LV K A) as (g' & en' & l & out & D & R).
    exists g', en', l, out. split; [|exact R]. intros fuel L. rewrite wrapped_same. apply D, L.
  Qed.
End IterList.

Lemma nw_iter_listed : forall rnd p n adj w, nmade rnd p n adj w -> has_edge adj -> nstorage_live p -> forall q e T lr n1 n2, nhistory rnd p q -> 1 <= n2 ->
  exists it q' en' cs l, make_nw_iter e q n1 n2 T = Ret it
    /\ (forall fuel, length cs < fuel -> nw_iter_list rnd fuel lr q it = Ok (q', en', Ret cs))
    /\ NoDup l /\ Forall2 (decodes n2) l cs /\ forall d, In d l -> clique n adj d /\ 2 <= length d /\ (sums_exact rnd w -> T <= weight w d)%Z.
Proof.
  intros rnd p n adj w M HE LV q e T lr n1 n2 H N2.
  destruct (nw_all_correspondences rnd p n adj w M HE LV q e T lr n1 n2 H N2) as (en & q' & en' & cs & l & A & R).
  exists (mkNCI en n1 n2), q', en', cs, l. split; [|exact R]. unfold make_nw_iter. unfold nw_corr_iterator in A. rewrite A. reflexivity.
Qed.
