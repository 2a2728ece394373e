(** CorrFacts: all_correspondences lists the correspondences of the given size. *)
From Verif Require Import Base BaseFacts MBits MUtils MGraph MHeur MStack MRec MEnum MApi MExt MGen MCorr Spec SpecDec SpecGen SpecCorr FindTwo RowFacts LoadProps ExtFacts SearchBase IsoFacts SearchProps Samples EnumApi OrderFacts ExtProps GenFacts GenProps.
From Coq Require Import Sorting.Sorted Sorting.Permutation.
Local Open Scope nat_scope.
Local Arguments Nat.sub : simpl never.
Local Arguments Nat.mul : simpl never.

Lemma Forall2_length {A B} (R : A -> B -> Prop) l l' : Forall2 R l l' -> length l = length l'.
Proof. induction 1; cbn; auto. Qed.

(** The vertices of a list of matches. *)
Definition code (n2 : nat) (ab : list nat * list nat) : list nat := map (fun ij => vid n2 (fst ij) (snd ij)) (combine (fst ab) (snd ab)).

Lemma code_nth n2 a b k : length a = length b -> k < length a -> nth k (code n2 (a, b)) 0 = vid n2 (nth k a 0) (nth k b 0).
Proof. apply combine_nth_vid. Qed.

Lemma code_length n2 a b : length a = length b -> length (code n2 (a, b)) = length a.
Proof. intros L. unfold code. cbn [fst snd]. rewrite map_length, combine_length. lia. Qed.

Lemma code_in n2 a b v : length a = length b -> In v (code n2 (a, b)) <-> exists k, k < length a /\ v = vid n2 (nth k a 0) (nth k b 0).
Proof.
  intros L. split.
  - intros I. destruct (In_nth _ _ 0 I) as (k & K & <-). rewrite code_length in K by auto. exists k. split; auto. apply code_nth; auto.
  - intros (k & K & ->). rewrite <- code_nth by auto. apply nth_In. rewrite code_length; auto.
Qed.

Lemma decode_code n2 : 1 <= n2 -> forall a b, length a = length b -> (forall j, In j b -> j < n2) ->
  correspondence2 n2 (code n2 (a, b)) = Ok (Ret (a, b)).
Proof.
  intros N. induction a as [|i a IH]; intros [|j b] L B; try discriminate L; [reflexivity|].
  change (code n2 (i :: a, j :: b)) with (vid n2 i j :: code n2 (a, b)). cbn [correspondence2].
  assert (J : j < n2) by (apply B; left; auto). destruct (Nat.eqb_spec (vid n2 i j) 0) as [X|_]; [unfold vid in X; lia|].
  destruct (Nat.eqb_spec n2 0); [lia|]. rewrite IH; [|cbn in L; lia|intros; apply B; right; auto]. cbn [bind].
  destruct (vid_decode n2 i j J) as (-> & ->). reflexivity.
Qed.

(** Increasing in the first set. *)
Lemma sorted_nth (l : list nat) : StronglySorted lt l <-> forall k k', k < k' < length l -> nth k l 0 < nth k' l 0.
Proof.
  induction l as [|x l IH]; split.
  - intros _ k k' H. cbn in H. lia.
  - constructor.
  - intros SS k k' H. apply StronglySorted_inv in SS. destruct SS as (SS & F). cbn [length] in H.
    destruct k as [|k], k' as [|k']; try lia; cbn [nth].
    + rewrite Forall_forall in F. apply F, nth_In. lia.
    + apply (proj1 IH SS). lia.
  - intros H. constructor.
    + apply IH. intros k k' K. apply (H (S k) (S k')). cbn [length]. lia.
    + apply Forall_forall. intros y I. destruct (In_nth l y 0 I) as (k & K & <-). apply (H 0 (S k)). cbn [length]. lia.
Qed.

Lemma code_sorted n2 a b : length a = length b -> (forall j, In j b -> j < n2) -> NoDup a ->
  StronglySorted lt (code n2 (a, b)) <-> StronglySorted lt a.
Proof.
  intros L B ND. rewrite !sorted_nth, code_length by auto. split; intros H k k' K; specialize (H k k' K).
  - rewrite !code_nth in H by lia. assert (J : nth k b 0 < n2) by (apply B, nth_In; lia). assert (J' : nth k' b 0 < n2) by (apply B, nth_In; lia).
    assert (nth k a 0 <> nth k' a 0) by (intros X; apply (proj1 (NoDup_nth a 0) ND) in X; lia). unfold vid in H. nia.
  - rewrite !code_nth by lia. assert (J : nth k b 0 < n2) by (apply B, nth_In; lia). assert (J' : nth k' b 0 < n2) by (apply B, nth_In; lia).
    unfold vid. nia.
Qed.

Lemma degree_ext adj adj' v d : (forall u, adj v u <-> adj' v u) -> degree adj v d -> degree adj' v d.
Proof. intros H (l & ND & I & L). exists l. split; auto. split; auto. intros u. rewrite <- H. auto. Qed.

Section Corr.
  Variables (n1 n2 : nat) (p : pygraph).
  Hypothesis CG : corr_graph n1 n2 p.
  Hypothesis HF : edges_fit p.
  Hypothesis LV : storage_live p.

  (** The matchings of compatible elements, increasing, are the cliques. *)
  Lemma clique_code rows a b : proper n1 n2 rows -> (forall u v, neighbour p u v <-> adj_rows rows u v) ->
    length a = length b -> (forall j, In j b -> j < n2) ->
    clique (n1 * n2) (adj_rows rows) (code n2 (a, b)) <-> matching n1 n2 a b /\ compatible p n2 a b /\ StronglySorted lt a.
  Proof.
    intros P NB L B. split.
    - intros C. assert (D : correspondence2 n2 (code n2 (a, b)) = Ok (Ret (a, b))).
      { destruct (Nat.eq_dec n2 0) as [Z|]; [|apply decode_code; auto; lia].
        destruct a as [|i a], b as [|j b]; try discriminate L; auto. specialize (B j (or_introl eq_refl)). lia. }
      destruct (clique_matching n1 n2 rows _ P C) as (a' & b' & D' & L' & MT & V). rewrite D in D'. injection D' as <- <-.
      split; auto. split; [eapply clique_compatible; eauto|]. apply (code_sorted n2 a b); auto; [apply MT|apply C].
    - intros (MT & CO & SS). pose proof MT as (_ & NA & NB' & RA & RB). split; [apply code_sorted; auto|]. split.
      + intros v I. apply code_in in I; auto. destruct I as (k & K & ->). apply vid_range; [apply RA|apply RB]; apply nth_In; lia.
      + intros u v I J N. apply code_in in I; auto. apply code_in in J; auto. destruct I as (k & K & ->), J as (k' & K' & ->).
        apply NB. apply CO; auto. intros ->. auto.
  Qed.

  Lemma first_code rows a b : (forall u v, neighbour p u v <-> adj_rows rows u v) -> length a = length b -> (forall j, In j b -> j < n2) ->
    first_at_1 (adj_rows rows) (code n2 (a, b)) <-> first_match_first p n2 a b.
  Proof.
    intros NB L B. assert (I1 : In 1 (code n2 (a, b)) <-> exists k, k < length a /\ nth k a 0 = 0 /\ nth k b 0 = 0).
    { rewrite code_in by auto. split; intros (k & K & E).
      - exists k. assert (nth k b 0 < n2) by (apply B, nth_In; lia). unfold vid in E. split; auto. nia.
      - exists k. split; auto. unfold vid. nia. }
    unfold first_at_1, first_match_first. rewrite I1. change (vid n2 0 0) with (0 * n2 + 0 + 1). replace (0 * n2 + 0 + 1) with 1 by lia.
    split; intros (H1 & H2); split; auto.
    - intros k d0 d K D0 D. apply (H2 (vid n2 (nth k a 0) (nth k b 0)) d0 d).
      + apply code_in; eauto.
      + eapply degree_ext; [|exact D0]. auto.
      + eapply degree_ext; [|exact D]. auto.
    - intros u d0 d I D0 D. apply code_in in I; auto. destruct I as (k & K & ->). apply (H2 k d0 d K).
      + eapply degree_ext; [|exact D0]. intros u. symmetry. auto.
      + eapply degree_ext; [|exact D]. intros u. symmetry. auto.
  Qed.

  (** list() over the correspondences follows list() over the cliques. *)
  Lemma corr_drain_of lr fuel : forall q en q' en' l l', drain fuel lr q en = Ok (q', en', l) ->
    Forall2 (fun c ab => correspondence2 n2 c = Ok (Ret ab)) l l' -> corr_drain fuel lr n2 q en = Ok (q', en', Ret l').
  Proof.
    induction fuel as [|f IH]; intros q en q' en' l l' E F; [discriminate|]. cbn [drain] in E. apply bind_ok in E.
    destruct E as ([[q1 en1] r] & E1 & E). cbn [corr_drain]. unfold next_correspondence. rewrite E1. cbn [bind]. destruct r as [c|x].
    - apply bind_ok in E. destruct E as ([[q2 en2] l2] & E2 & E). injection E as -> -> <-. inversion F as [|? ab ? l3 D F']; subst.
      rewrite D. cbn [bind]. rewrite (IH _ _ _ _ _ _ E2 F'). reflexivity.
    - injection E as -> -> <-. inversion F; subst. cbn [bind].
      assert (X : x = EStopIteration); [|rewrite X; reflexivity]. clear - E1. unfold next_clique in E1. destruct (p_G q) as [g|]; [|discriminate].
      apply bind_ok in E1. destruct E1 as ([[g' en0] v] & _ & E). destruct (p_nvert q <? v); [injection E as _ _ <-; reflexivity|].
      apply bind_ok in E. destruct E as ([g'' c] & _ & E). discriminate.
  Qed.

  Lemma decoded rows l : proper n1 n2 rows -> (forall c, In c l -> clique (n1 * n2) (adj_rows rows) c) ->
    exists l', Forall2 (fun c ab => correspondence2 n2 c = Ok (Ret ab)) l l' /\ l = map (code n2) l'
      /\ forall a b, In (a, b) l' -> length a = length b /\ forall j, In j b -> j < n2.
  Proof.
    intros P. induction l as [|c l IH]; intros H.
    - exists []. split; [constructor|]. split; auto. intros a b [].
    - destruct IH as (l' & F & E & B); [intros; apply H; right; auto|].
      destruct (clique_matching n1 n2 rows c P (H c (or_introl eq_refl))) as (a & b & D & L & MT & V).
      exists ((a, b) :: l'). split; [constructor; auto|]. pose proof MT as (LE & _ & _ & _ & RB). split.
      + cbn [map]. rewrite <- E. f_equal. apply (nth_ext _ _ 0 0); [rewrite code_length; auto|]. intros k K. rewrite V by auto.
        rewrite code_nth by lia. reflexivity.
      + intros a' b' [X|I]; [injection X as <- <-; auto|apply B; auto].
  Qed.

  Lemma code_inj a b a' b' : length a = length b -> (forall j, In j b -> j < n2) -> length a' = length b' -> (forall j, In j b' -> j < n2) ->
    code n2 (a, b) = code n2 (a', b') -> (a, b) = (a', b').
  Proof.
    intros L B L' B' E. destruct (Nat.eq_dec n2 0) as [Z|N].
    - destruct a as [|i a], b as [|j b]; try discriminate L; [|specialize (B j (or_introl eq_refl)); lia].
      destruct a' as [|i a'], b' as [|j b']; try discriminate L'; auto; try discriminate E.
    - assert (N' : 1 <= n2) by lia. pose proof (decode_code n2 N' a b L B) as D. rewrite E, (decode_code n2 N' a' b' L' B') in D.
      injection D as -> ->. reflexivity.
  Qed.

  Definition all_of (k : nat) (l : list (list nat * list nat)) : Prop := NoDup l /\ forall a b,
    In (a, b) l <-> matching n1 n2 a b /\ compatible p n2 a b /\ length a = k /\ StronglySorted lt a /\ ~ first_match_first p n2 a b.

  Lemma list_of_cliques rows k l : proper n1 n2 rows -> (forall u v, neighbour p u v <-> adj_rows rows u v) -> NoDup l ->
    (forall c, In c l <-> clique (n1 * n2) (adj_rows rows) c /\ length c = k /\ ~ first_at_1 (adj_rows rows) c) ->
    exists l', Forall2 (fun c ab => correspondence2 n2 c = Ok (Ret ab)) l l' /\ all_of k l'.
  Proof.
    intros P NB ND H. destruct (decoded rows l P) as (l' & F & E & B); [intros c I; apply H; auto|]. exists l'. split; auto. split.
    - rewrite E in ND. apply NoDup_map_inv in ND. auto.
    - intros a b. split.
      + intros I. destruct (B a b I) as (L & BB). assert (C : In (code n2 (a, b)) l) by (rewrite E; apply in_map; auto).
        apply H in C. destruct C as (C & LC & FC). rewrite code_length in LC by auto. apply (clique_code rows a b P NB L BB) in C.
        destruct C as (C1 & C2 & C3). do 4 (split; auto). intros FM. apply FC, first_code; auto.
      + intros (MT & CO & LE & SS & FM). pose proof MT as (L & _ & _ & _ & BB).
        assert (C : In (code n2 (a, b)) l).
        { apply H. split; [apply clique_code; auto|]. split; [rewrite code_length; auto|]. intros FC. apply FM. apply (first_code rows a b); auto. }
        rewrite E in C. apply in_map_iff in C. destruct C as ([a' b'] & EC & I). destruct (B a' b' I) as (L' & BB').
        apply code_inj in EC; auto. rewrite <- EC. auto.
  Qed.

  Lemma correspondences_listed lr k en : 2 <= k -> all_correspondences p n1 n2 k = Ret en ->
    exists q' en' l, (forall fuel, length l < fuel -> corr_drain fuel lr n2 p en = Ok (q', en', Ret l)) /\ all_of k l.
  Proof.
    intros K EN. assert (X : en = new_enum k) by (unfold all_correspondences in EN; destruct (loaded p); congruence). subst en.
    destruct (corr_made n1 n2 p CG HF) as (rows & P & M & NB).
    destruct (enumerated_exactly p _ _ M LV lr k K) as (q' & en' & l & D & C).
    pose proof (fresh_enumerated_once p _ _ M LV lr k _ _ _ _ (D _ (Nat.lt_succ_diag_r _))) as ND.
    destruct (list_of_cliques rows k l P NB ND C) as (l' & F & A). exists q', en', l'. split; auto.
    intros fuel H. eapply corr_drain_of; eauto. apply D. rewrite (Forall2_length _ _ _ F). auto.
  Qed.

  Lemma unhurried_ext adj adj' q : (forall u v, adj u v <-> adj' u v) -> unhurried (n1 * n2) adj p q -> unhurried (n1 * n2) adj' p q.
  Proof.
    intros H. induction 1 as [|q e lb ub heur dfs cont q' r U IH HP NL HU E|q q' U IH E|q lr k fuel q' en l U IH E|q lr en q' en' r U IH L E].
    - apply u_start.
    - eapply u_get; eauto. intros d (C1 & C2 & C3). apply HU. split; auto. split; auto. intros u v I J N. apply H. auto.
    - eapply u_reset; eauto.
    - eapply u_all; eauto.
    - eapply u_small; eauto.
  Qed.

  Lemma correspondences_listed_later q lr k en : (exists u v, neighbour p u v) -> unhurried (n1 * n2) (neighbour p) p q ->
    2 <= k -> all_correspondences q n1 n2 k = Ret en ->
    exists q' en' l, (forall fuel, length l < fuel -> corr_drain fuel lr n2 q en = Ok (q', en', Ret l)) /\ all_of k l.
  Proof.
    intros NE U K EN. assert (X : en = new_enum k) by (unfold all_correspondences in EN; destruct (loaded q); congruence). subst en.
    destruct (corr_made n1 n2 p CG HF) as (rows & P & M & NB).
    assert (HE : has_edge (adj_rows rows)) by (destruct NE as (u & v & N); exists u, v; apply NB; auto).
    apply (unhurried_ext _ _ q NB) in U.
    destruct (same_sequence p _ _ M LV q lr lr k HE U) as (q1 & en1 & q2 & en2 & l & D1 & D2).
    destruct (enumerated_exactly p _ _ M LV lr k K) as (q' & en' & l0 & D & C).
    pose proof (drain_unique _ _ _ _ _ _ _ _ (D1 _ (Nat.lt_succ_diag_r _)) D) as EQ. injection EQ as _ _ ->.
    pose proof (fresh_enumerated_once p _ _ M LV lr k _ _ _ _ (D _ (Nat.lt_succ_diag_r _))) as ND.
    destruct (list_of_cliques rows k l0 P NB ND C) as (l' & F & A). exists q2, en2, l'. split; auto.
    intros fuel H. eapply corr_drain_of; eauto. apply D2. rewrite (Forall2_length _ _ _ F). auto.
  Qed.

  Lemma single_matches lr en : all_correspondences p n1 n2 1 = Ret en ->
    exists q' en' l, (forall fuel, length l < fuel -> corr_drain fuel lr n2 p en = Ok (q', en', Ret l))
      /\ l = map (fun v => ([v / n2], [v mod n2])) (seq 0 (n1 * n2)).
  Proof.
    intros EN. assert (X : en = new_enum 1) by (unfold all_correspondences in EN; destruct (loaded p); congruence). subst en.
    destruct (corr_made n1 n2 p CG HF) as (rows & P & M & NB).
    destruct (enumerate_small p _ _ M LV lr) as (_ & _ & q1 & en1 & _ & D).
    exists q1, en1. eexists. split; [|reflexivity]. intros fuel H. rewrite map_length, seq_length in H.
    eapply corr_drain_of; [apply D; auto|]. destruct (Nat.eq_dec n2 0) as [Z|N]; [rewrite Z, Nat.mul_0_r; constructor|].
    rewrite <- seq_shift, map_map. generalize (seq 0 (n1 * n2)). induction l as [|v l IH]; cbn [map]; constructor; auto.
    cbn [correspondence2]. change (S v =? 0) with false. cbv iota. destruct (Nat.eqb_spec n2 0); [congruence|]. cbn [bind].
    replace (S v - 1) with v by lia. reflexivity.
  Qed.
End Corr.

(** ** The wrappers *)
Section Elements.
  Context {E1 E2 : Type}.
  Variables (S1 : gset E1) (S2 : gset E2).
  Let n1 := length (gs_elems S1).
  Let n2 := length (gs_elems S2).

  Lemma gen_drain_of lr fuel : forall (g : gengraph E1 E2) en q' en' l out, gg_S1 g = S1 -> gg_S2 g = S2 ->
    corr_drain fuel lr n2 (gg_graph g) en = Ok (q', en', Ret l) ->
    Forall2 (fun ab xy => gen_format g ab = Ret xy) l out -> gen_drain fuel lr g en = Ok (with_graph g q', en', Ret out).
  Proof.
    induction fuel as [|f IH]; intros g en q' en' l out G1 G2 E F; [discriminate|]. cbn [corr_drain] in E. apply bind_ok in E.
    destruct E as ([[q1 en1] r] & X & E). cbn [gen_drain]. unfold gen_next_elements, gen_next_indices, len2. rewrite G2. fold n2. rewrite X. cbn [bind].
    destruct r as [ab|x].
    - apply bind_ok in E. destruct E as ([[q2 en2] r2] & X2 & E). destruct r2 as [l2|x]; [|discriminate]. injection E as -> -> <-.
      inversion F as [|? xy ? out' D F']; subst. cbn [bind]. change (gen_format (with_graph g q1) ab) with (gen_format g ab). rewrite D.
      rewrite (IH (with_graph g q1) en1 q' en' l2 out' eq_refl eq_refl X2 F'). reflexivity.
    - destruct x; try discriminate E. injection E as -> -> <-. inversion F; subst. reflexivity.
  Qed.

  Lemma formatted (g : gengraph E1 E2) l : gg_S1 g = S1 -> gg_S2 g = S2 -> (forall a b, In (a, b) l -> matching n1 n2 a b) ->
    exists out, Forall2 (fun ab xy => gen_format g ab = Ret xy) l out
      /\ Forall2 (fun ab xy => elements_at (gs_elems S1) (fst ab) (fst xy) /\ elements_at (gs_elems S2) (snd ab) (snd xy)) l out.
  Proof.
    intros G1 G2. induction l as [|[a b] l IH]; intros H; [exists []; split; constructor|].
    destruct IH as (out & F & F'); [intros; apply H; right; auto|].
    destruct (format_ok S1 S2 g a b G1 G2 (H a b (or_introl eq_refl))) as (xs & ys & FO & FX & FY).
    exists ((xs, ys) :: out). split; constructor; auto.
  Qed.
End Elements.

Section GenList.
  Context {E1 E2 : Type}.
  Variables (S1 : gset E1) (S2 : gset E2) (d1 d2 : option metric) (sym1 sym2 : bool) (eps : Z) (srt : list pdist -> list pdist).
  Hypothesis Hs : sorts_dists srt.
  Hypothesis D2 : d1 <> None \/ d2 = None.
  Let n1 := length (gs_elems S1).
  Let n2 := length (gs_elems S2).
  Variables (f1 f2 : metric).
  Hypothesis W1 : wanted S1 d1 = Some f1.
  Hypothesis W2 : wanted S2 d2 = Some f2.
  Hypothesis HT : table_fits (wanted_set S2 d2 sym2 f2).
  Hypothesis Y1 : forall k l, f1 k l = f1 l k.
  Hypothesis Y2 : forall k l, f2 k l = f2 l k.

  Lemma elements_listed g f lr k en : gen_build_with_condition srt (gen_init S1 S2 d1 d2 sym1 sym2 eps) f false = Ok (Ret g) ->
    edges_fit (gg_graph g) -> storage_live (gg_graph g) -> 2 <= k -> gen_all_correspondences g k = Ret en ->
    exists g' en' l out, (forall fuel, length out < fuel -> gen_drain fuel lr g en = Ok (g', en', Ret out))
      /\ Forall2 (fun ab xy => elements_at (gs_elems S1) (fst ab) (fst xy) /\ elements_at (gs_elems S2) (snd ab) (snd xy)) l out
      /\ NoDup l
      /\ (forall a b, In (a, b) l -> matching n1 n2 a b /\ near_matches f1 (wanted_set S2 d2 sym2 f2) eps a b
            /\ passed (declared d1 sym1) f a b /\ length a = k /\ StronglySorted lt a)
      /\ (forall a b, matching n1 n2 a b -> close_matches f1 f2 eps a b -> allowed (declared d1 sym1) f a b -> length a = k ->
            StronglySorted lt a -> ~ first_match_first (gg_graph g) n2 a b -> In (a, b) l).
  Proof.
    intros E HF LV K EN. rewrite (gen_both S1 S2 d1 d2 sym1 sym2 eps srt D2 f1 f2 W1 W2) in E. apply lift_ret in E. destruct E as (E & G2 & G3).
    set (s1 := wanted_set S1 d1 sym1 f1) in *. set (s2 := wanted_set S2 d2 sym2 f2) in *.
    assert (CG : corr_graph n1 n2 (gg_graph g)) by (apply (cg_both n1 n2 _ exact srt s1 s2 eps f); auto; apply exact_rises).
    unfold gen_all_correspondences, len1, len2 in EN. rewrite G2, G3 in EN. fold n1 n2 in EN.
    destruct (correspondences_listed n1 n2 _ CG HF LV lr k en K EN) as (q' & en' & l & D & ND & A).
    destruct (formatted S1 S2 g l G2 G3) as (out & F & F'); [intros a b I; apply A; auto|].
    exists (with_graph g q'), en', l, out. split; [|split; [exact F'|split; [exact ND|split]]].
    - intros fuel H. eapply (gen_drain_of S1 S2); eauto. apply D. rewrite (Forall2_length _ _ _ F). auto.
    - intros a b I. apply A in I. destruct I as (MT & CO & L & SS & _). split; auto.
      destruct (near_of S1 S2 d1 d2 sym1 sym2 eps srt Hs f1 f2 HT Y1 Y2 f _ a b E HF MT CO) as (NM & PA). auto.
    - intros a b MT CM AL L SS FM. apply A. split; auto. split; auto.
      eapply (close_compatible S1 S2 d1 d2 sym1 sym2 eps srt Hs f1 f2 HT Y1 Y2); eauto.
  Qed.
End GenList.

Section IsoList.
  Variables (s1 s2 q : pygraph) (n1 n2 : nat) (adj1 adj2 : nat -> nat -> Prop).
  Hypothesis M1 : made s1 n1 adj1.
  Hypothesis M2 : made s2 n2 adj2.
  Hypothesis E : build_edges_for_iso new_pygraph s1 s2 = Ok (Ret q).
  Hypothesis HF : edges_fit q.
  Hypothesis LV : storage_live q.

  Lemma embedding_compatible a b : embedding n1 adj1 n2 adj2 (map S a) (map S b) -> matching n1 n2 a b /\ compatible q n2 a b.
  Proof.
    intros (L & NA & NB & RA & RB & EM). rewrite !map_length in L. rewrite map_length in EM. apply NoDup_map_inv in NA. apply NoDup_map_inv in NB.
    assert (NS : forall c i, i < length c -> nth i (map S c) 0 = S (nth i c 0)).
    { intros c i H. rewrite (nth_indep _ 0 1) by (rewrite map_length; auto). apply (map_nth S). }
    assert (RA' : forall i, In i a -> i < n1) by (intros i I; apply (in_map S), RA in I; lia).
    assert (RB' : forall i, In i b -> i < n2) by (intros i I; apply (in_map S), RB in I; lia).
    split; [split; auto|]. intros k l K K' N.
    assert (KB : k < length b) by lia. assert (LB : l < length b) by lia.
    pose proof (RA' _ (nth_In a 0 K)) as A1. pose proof (RA' _ (nth_In a 0 K')) as A2. pose proof (RB' _ (nth_In b 0 KB)) as B1. pose proof (RB' _ (nth_In b 0 LB)) as B2.
    pose proof (iso_iff s1 s2 n1 n2 adj1 adj2 M1 M2 new_pygraph q (S (nth k a 0)) (S (nth l a 0)) (S (nth k b 0)) (S (nth l b 0)) E HF) as W.
    replace (S (nth k a 0) - 1) with (nth k a 0) in W by lia. replace (S (nth l a 0) - 1) with (nth l a 0) in W by lia.
    replace (S (nth k b 0) - 1) with (nth k b 0) in W by lia. replace (S (nth l b 0) - 1) with (nth l b 0) in W by lia.
    apply W; try lia. split; [|split].
    - intros X. apply N, (proj1 (NoDup_nth a 0) NA); auto; lia.
    - intros X. apply N, (proj1 (NoDup_nth b 0) NB); auto; lia.
    - intros A. specialize (EM k l K K'). rewrite !NS in EM by lia. auto.
  Qed.

  Lemma embeddings_listed lr k en : 2 <= k -> all_correspondences q (p_nvert s1) (p_nvert s2) k = Ret en ->
    exists q' en' l, (forall fuel, length l < fuel -> corr_drain fuel lr (p_nvert s2) q en = Ok (q', en', Ret l)) /\ NoDup l
      /\ forall a b, In (a, b) l <-> embedding n1 adj1 n2 adj2 (map S a) (map S b) /\ length a = k /\ StronglySorted lt a
           /\ ~ first_match_first q n2 a b.
  Proof.
    intros K EN. rewrite (made_nvert _ _ _ M1), (made_nvert _ _ _ M2) in *.
    destruct (correspondences_listed n1 n2 q (cg_iso _ _ _ s1 s2 adj1 adj2 M1 M2 E) HF LV lr k en K EN) as (q' & en' & l & D & ND & A).
    exists q', en', l. split; auto. split; auto. intros a b. rewrite A. split.
    - intros (MT & CO & R). split; auto. eapply compatible_embedding; eauto.
    - intros (EM & R). apply embedding_compatible in EM. destruct EM. auto.
  Qed.
End IsoList.
