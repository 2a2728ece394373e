(** GreedyFacts: the size of the clique the heuristic finds, compared with greedy choices (C112). *)
From Verif Require Import Base MBits MUtils MGraph MHeur MStack MRec MEnum MApi Spec SpecBits SpecNW SpecCont SpecOrder SpecFirst SpecGreedy BaseFacts BitsFacts SetFacts SortFacts RowFacts ConstructFacts CardFacts LoadFacts SearchBase StackFacts RecFacts HeurFacts SearchFacts SatFacts CliqueFacts ApiFacts EnumFacts EnumApi SearchProps FirstFacts.
From Coq Require Import Sorting.Sorted Sorting.Permutation.
Local Open Scope nat_scope.
Local Arguments Nat.sub : simpl never.
Local Arguments Nat.mul : simpl never.

Section Greedy.
  Variables (a : pairs) (n : nat) (adj : nat -> nat -> Prop).
  Hypothesis GR : gra a n adj.
  Notation nv := (n + 1).
  Let HC := gra_ctx a n adj GR.
  Let HS := gc_sorted _ _ HC.
  Let Hself := gc_self _ _ HC.

  (** The loop over the candidates is a greedy choice. *)
  Lemma gsize_greedily v l : forall t X, (forall d, In d l -> d = ent_of a v (d_pos d)) -> NoDup (map d_id l) ->
    (forall d, In d l -> (X (d_pos d) = true <-> forall x, In x t -> adj (d_id d) x)) ->
    exists c, greedily adj t (map d_id l) c /\ length c = gsize a v l (length t) X.
  Proof.
    induction l as [|d r IH]; intros t X HE ND HX.
    { exists t. split; [constructor|reflexivity]. }
    cbn [map] in ND. inversion ND as [|? ? N1 N2]; subst. cbn [map gsize].
    destruct (X (d_pos d)) eqn:EX.
    - assert (A : forall x, In x t -> adj (d_id d) x) by (apply HX; [left; auto|auto]).
      destruct (IH (d_id d :: t) (keep a v (d_pos d) X)) as (c & C1 & C2); auto.
      + intros; apply HE; right; auto.
      + intros e Ie. assert (NE : d_id e <> d_id d) by (intros E; apply N1; rewrite <- E; apply in_map; auto).
        assert (EP : d_pos e <> d_pos d).
        { intros E. apply NE. rewrite (HE e), (HE d) by (cbn; auto). cbn [ent_of d_id]. rewrite E. reflexivity. }
        unfold keep. rewrite !andb_true_iff, negb_true_iff, Nat.eqb_neq, (HX e) by (right; auto).
        assert (PA : padj a v (d_pos d) (d_pos e) = true <-> adj (d_id e) (d_id d)).
        { unfold padj. rewrite inb_in, row_in.
          replace (nbr a v (d_pos e)) with (d_id e) by (rewrite (HE e) at 1 by (cbn; auto); reflexivity).
          replace (nbr a v (d_pos d)) with (d_id d) by (rewrite (HE d) at 1 by (cbn; auto); reflexivity).
          split.
          - intros I. apply (gr_simple _ _ _ GR). apply (gra_adj _ _ _ _ _ GR). auto.
          - intros I. apply (gr_simple _ _ _ GR) in I. destruct I as (I & _). apply (gra_adj _ _ _ _ _ GR) in I. tauto. }
        rewrite PA. split.
        * intros [[_ H1] H2] x [<-|Ix]; auto.
        * intros H. split; [split; [exact EP|]|]; intros; apply H; cbn; auto.
      + exists c. split; [constructor; auto|exact C2].
    - destruct (IH t X) as (c & C1 & C2); auto.
      + intros; apply HE; right; auto.
      + intros; apply HX; right; auto.
      + exists c. split; [|exact C2]. apply greedily_pass; auto. intros H. apply HX in H; [congruence|left; auto].
  Qed.

  Lemma greedily_bound t l c : greedily adj t l c -> length c <= length t + length l.
  Proof. induction 1; cbn [length] in *; lia. Qed.

  (** What the heuristic offers at one vertex. *)
  Lemma hstep_greedily (srt : list vdata -> list vdata) v s : (forall l, Permutation (srt l) l) ->
    (forall l, StronglySorted (fun x y => d_N y <= d_N x) (srt l)) -> v < nv -> hstep a v srt s = s ->
    exists l c, by_degree adj v l /\ greedily adj [v] l c /\ length l = bound a v - 1 /\ (length l <= s \/ length c <= s).
  Proof.
    intros HP HO Hv Q. set (E := map (ent_of a v) (members (rlen a v) (candp a v))) in *. set (L := srt E).
    assert (PL : Permutation L E) by apply HP.
    assert (IE : forall d, In d L -> exists x, x < rlen a v /\ candp a v x = true /\ d = ent_of a v x).
    { intros d I. apply (Permutation_in _ PL) in I. apply in_map_iff in I. destruct I as (x & <- & I).
      unfold members in I. apply filter_In in I. destruct I as [I1 I2]. apply in_seq in I1. exists x. split; [lia|]. auto. }
    assert (NDE : NoDup (map d_id E)).
    { unfold E. rewrite map_map. cbn [ent_of d_id].
      assert (NR : NoDup (row a v)) by (apply sorted_nodup, row_sorted, HS).
      assert (NM : NoDup (members (rlen a v) (candp a v))) by (apply NoDup_filter, seq_NoDup).
      assert (LT : forall x, In x (members (rlen a v) (candp a v)) -> x < rlen a v).
      { intros x I. apply filter_In in I. destruct I as [I _]. apply in_seq in I. lia. }
      revert NM LT. generalize (members (rlen a v) (candp a v)). induction l as [|x l IH]; intros NM LT; cbn [map]; [constructor|].
      inversion NM; subst. constructor; [|apply IH; auto; intros; apply LT; right; auto].
      intros I. apply in_map_iff in I. destruct I as (y & EY & IY).
      apply (proj1 (NoDup_nth (row a v) 0) NR) in EY; [subst; auto|apply LT; right; auto|apply LT; left; auto]. }
    assert (ND : NoDup (map d_id L)) by (eapply Permutation_NoDup; [apply Permutation_map, Permutation_sym, PL|exact NDE]).
    assert (MEM : forall u, In u (map d_id L) <-> adj v u /\ comes_after adj v u).
    { intros u. rewrite in_map_iff. split.
      - intros (d & <- & I). destruct (IE d I) as (x & X1 & X2 & ->). cbn [ent_of d_id].
        assert (IR : In (nbr a v x) (row a v)) by (apply nth_In; auto). pose proof IR as IR'. apply row_in in IR.
        assert (NE : v <> nbr a v x) by (intros E'; unfold candp in X2; rewrite <- E', before_irrefl in X2; discriminate).
        assert (LT : nbr a v x < nv) by (apply (nbr_lt a nv HC); auto).
        split; [apply (gra_adj _ _ _ _ _ GR); auto|]. apply (before_after a n adj GR); auto.
      - intros [A C]. pose proof (gr_simple _ _ _ GR v u A) as (A' & NE & _). pose proof (gr_simple _ _ _ GR u v A') as (_ & _ & Hu).
        apply (gra_adj _ _ _ _ _ GR) in A. destruct A as [_ A]. apply row_in in A. apply (In_nth _ _ 0) in A. destruct A as (x & X1 & X2).
        exists (ent_of a v x). split; [exact X2|]. apply (Permutation_in _ (Permutation_sym PL)). apply in_map. apply filter_In. split; [apply in_seq; lia|].
        unfold candp. rewrite X2. apply (before_after a n adj GR); auto. lia. }
    destruct (gsize_greedily v L [v] (candp a v)) as (c & C1 & C2); auto.
    { intros d I. destruct (IE d I) as (x & _ & _ & ->). reflexivity. }
    { intros d I. destruct (IE d I) as (x & X1 & X2 & ->). cbn [ent_of d_pos d_id]. split; auto. intros _ y [<-|[]].
      apply (gr_simple _ _ _ GR). apply (MEM (nbr a v x)). apply in_map_iff. exists (ent_of a v x). auto. }
    exists (map d_id L), c.
    assert (LL : length (map d_id L) = card (rlen a v) (candp a v)).
    { rewrite map_length, (Permutation_length PL). unfold E. rewrite map_length. reflexivity. }
    split; [|split; [exact C1|split]].
    - split; [exact ND|]. split; [exact MEM|].
      assert (ST : StronglySorted (fun x y => d_N y <= d_N x) L) by apply HO.
      assert (NN : forall d, In d L -> d_N d = rlen a (d_id d) /\ d_id d < nv).
      { intros d I. destruct (IE d I) as (x & X1 & X2 & ->). split; [reflexivity|]. apply (nbr_lt a nv HC); auto. }
      clear - ST NN GR HS Hself HC. induction ST as [|d l ST IH F]; cbn [map]; constructor.
      + apply IH. intros; apply NN; right; auto.
      + apply Forall_forall. intros y IY. apply in_map_iff in IY. destruct IY as (e & <- & IE). rewrite Forall_forall in F.
        specialize (F e IE). destruct (NN d ltac:(left; auto)) as [N1 N2]. destruct (NN e ltac:(right; auto)) as [N3 N4].
        intros dx dy DX DY. rewrite (degree_fun adj _ _ _ DX (row_degree a n adj GR _ N2)), (degree_fun adj _ _ _ DY (row_degree a n adj GR _ N4)). lia.
    - rewrite LL. unfold bound. rewrite Nat.sub_succ, Nat.sub_0_r. reflexivity.
    - rewrite LL. unfold hstep in Q. destruct (Nat.leb_spec (card (rlen a v) (candp a v)) s); [left; auto|right].
      cbn [length] in C2. rewrite C2. fold E in Q. fold L in Q. lia.
  Qed.
End Greedy.

Lemma heuristic_greedy p n adj e lb ub cont q c : made p n adj -> has_edge adj -> storage_live p -> sorts e -> lawful e lb ->
  get_max_clique e p lb ub true false cont = Ok (q, Ret c) -> length c < ub ->
  forall v, 1 <= v <= n -> exists l d, by_degree adj v l /\ greedily adj [v] l d
    /\ (length d <= length c \/ length d = S (length c) /\ length d = S (length l)).
Proof.
  intros M HE LV [HP HO] LA E UB v Hv.
  destruct (made_hinv p n adj M HE LV) as (a & cap & m & g & GR & B & -> & HL & G & Z & WD & ST & _ & _).
  pose proof (has_edge_n a n adj GR HE) as Hn. set (g0 := prepared g lb ub) in *.
  pose proof (gra_ctx a n adj GR) as HC.
  rewrite get_unfold in E by auto. replace (if cont && negb (0 =? 0) then false else true) with true in E by (destruct cont; auto). fold g0 in E.
  pose proof (heur_process_graph_spec a (n + 1) HC (gra_len0 a n adj GR) (srt_fun e) g0 (bound a) HP (prepared_good a n g (bound a) lb ub G)) as W.
  unfold find_max_cliques in E. destruct (heur_process_graph (srt_fun e) g0) as [g'| |]; cbn [bind] in E; try discriminate. cbn [wp ends_with] in W.
  destruct W as (G' & C' & Z' & [Q1 Q2] & _).
  assert (E' : ('(g'', ans) <- stored_clique g' (CUR_MAX_LOC g');;
     if length ans <? lb then Ok (mkP (Some g'') n m (if cont then 0 else 0) (n <=? (if cont then 0 else 0)), Raise EBounds)
     else Ok (mkP (Some g'') n m (if cont then 0 else 0) (n <=? (if cont then 0 else 0)), Ret ans)) = Ok (q, Ret c)).
  { destruct (clock e); exact E. }
  clear E. pose proof (Z' (prepared_nz a g lb ub Z)) as ZZ.
  pose proof (proj1 G') as B'. pose proof (go_loc _ _ _ _ _ B') as L'.
  destruct (go_bits _ _ _ _ _ B' _ L') as (s & S).
  destruct (stored_clique_spec a n adj GR g' (bound a) (CUR_MAX_LOC g') s (go_shape _ _ _ _ _ B')) as (c' & E1 & E2 & E3); auto.
  { destruct ZZ. lia. }
  rewrite E1 in E'. cbn [bind] in E'. destruct (Nat.ltb_spec (length c') lb) as [|GE]; [discriminate|]. injection E' as _ <-. subst s.
  assert (KEY : CUR_MAX_SIZE g' <= length c').
  { destruct (ca_best _ _ _ _ C') as [(X1 & X2 & X3)|(X1 & X2)].
    - unfold g0 in X1. cbn [prepared set_limit set_best CUR_MAX_SIZE] in X1. rewrite (b_max _ _ _ _ B) in X1. lia.
    - rewrite (stores_fun _ _ _ _ _ S X2). lia. }
  assert (LIM : CLIQUE_LIMIT g' = Nat.min ub (CLIQUE_LIMIT g)) by (rewrite (core_lim _ _ (ca_core _ _ _ _ C')); reflexivity).
  assert (QV : exists l d, by_degree adj v l /\ greedily adj [v] l d /\ (length l <= CUR_MAX_SIZE g' \/ length d <= CUR_MAX_SIZE g')).
  { assert (SMALL : bound a v <= CUR_MAX_SIZE g' -> exists l d, by_degree adj v l /\ greedily adj [v] l d /\ (length l <= CUR_MAX_SIZE g' \/ length d <= CUR_MAX_SIZE g')).
    { intros SB. destruct (hstep_greedily a n adj GR (srt_fun e) v (bound a v) HP HO ltac:(lia)) as (l & d & D1 & D2 & D3 & _).
      - unfold hstep. change (card (rlen a v) (candp a v)) with (length (members (rlen a v) (candp a v))).
        replace (length (members (rlen a v) (candp a v)) <=? bound a v) with true; auto. symmetry. apply Nat.leb_le. unfold bound, members, sel. lia.
      - exists l, d. split; auto. split; auto. left. lia. }
    destruct Q2 as [Q2|Q2].
    - apply SMALL. pose proof (b_lim _ _ _ _ B v ltac:(lia)). lia.
    - destruct (Q2 v ltac:(lia)) as [Q3|Q3]; [apply SMALL; auto|].
      destruct (hstep_greedily a n adj GR (srt_fun e) v _ HP HO ltac:(lia) Q3) as (l & d & D1 & D2 & _ & D3). eauto. }
  destruct QV as (l & d & D1 & D2 & D3). exists l, d. split; auto. split; auto.
  pose proof (greedily_bound adj _ _ _ D2) as DB. cbn [length] in DB. lia.
Qed.
