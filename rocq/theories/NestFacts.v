(** NestFacts: the scratch space as a stack of iterators; nested loops over all_cliques. *)
From Verif Require Import Base MBits MUtils MGraph MHeur MStack MRec MEnum MApi Spec SpecCont SpecOrder SpecNest SpecBits BaseFacts BitsFacts SetFacts SortFacts RowFacts ConstructFacts CardFacts LoadFacts SearchBase FrameFacts FrameInv StackFacts RecFacts HeurFacts SearchFacts CliqueFacts ApiFacts EnumFacts EnumApi SatFacts SearchProps.
From Coq Require Import Sorting.Sorted Sorting.Permutation.
Local Open Scope nat_scope.
Local Arguments Nat.sub : simpl never.
Local Arguments Nat.mul : simpl never.

(** The memory below [c], zero from there on. *)
Definition cut (c : nat) (m : list N) : list N := firstn c m ++ repeat 0%N (length m - c).

Lemma cut_length c m : length (cut c m) = length m.
Proof. unfold cut. rewrite app_length, firstn_length, repeat_length. lia. Qed.

Lemma nth_repeat0 k r : nth k (repeat 0%N r) 0%N = 0%N.
Proof. revert k; induction r as [|r IH]; intros [|k]; simpl; auto. Qed.

Lemma cut_low c m i : i < c -> nth i (cut c m) 0%N = nth i m 0%N.
Proof.
  intros H. unfold cut. destruct (Nat.lt_ge_cases i (length m)) as [L|L].
  - rewrite app_nth1 by (rewrite firstn_length; lia). rewrite <- (firstn_skipn c m) at 2. rewrite app_nth1; auto. rewrite firstn_length; lia.
  - rewrite !nth_overflow; auto. rewrite app_length, firstn_length, repeat_length. lia.
Qed.

Lemma cut_high c m : zero_from (cut c m) c.
Proof.
  intros i Hi. unfold cut. destruct (Nat.lt_ge_cases (length m) c).
  - rewrite nth_overflow; auto. rewrite app_length, firstn_length, repeat_length. lia.
  - rewrite app_nth2 by (rewrite firstn_length; lia). apply nth_repeat0.
Qed.

Lemma cut_id c m : zero_from m c -> cut c m = m.
Proof.
  intros Z. apply nth_ext with (d := 0%N) (d' := 0%N); [apply cut_length|]. intros i Hi.
  destruct (Nat.lt_ge_cases i c); [apply cut_low; auto|]. rewrite (cut_high c m i) by auto. rewrite Z; auto.
Qed.

Lemma cut_ok c m : memok m -> memok (cut c m).
Proof.
  unfold memok. rewrite !Forall_forall. intros H x I. unfold cut in I. apply in_app_iff in I. destruct I as [I|I].
  - apply H. rewrite <- (firstn_skipn c m). apply in_app_iff. auto.
  - apply repeat_spec in I. subst. reflexivity.
Qed.

Section Frames.
  Variables (a : pairs) (nv cur c0 : nat) (lr : bool) (cp : nat -> bool) (bd : nat).
  Hypothesis Hc : cur < nv.

  Lemma arena_ext m m' sc fs sts : arena a cur c0 lr cp bd m sc fs sts -> memok m' -> length m' = length m ->
    (forall k, c0 <= k -> nth k m' 0%N = nth k m 0%N) -> arena a cur c0 lr cp bd m' sc fs sts.
  Proof.
    intros [R1 R2 R3 R4 R5 R6] M1 M2 M3. split; auto.
    - intros k Hk. rewrite M3; [apply R3; auto|]. lia.
    - eapply rep_nth; [|exact M2|exact R4]. intros k Hk. apply M3. pose proof (rp_ge a nv cur c0 lr Hc). lia.
    - eapply finv_frame; eauto. intros d Hd k Hk. apply M3. pose proof (blk_ge a nv cur c0 lr Hc d). lia.
    - lia.
  Qed.
End Frames.

Lemma sorted_snoc {A} (R : A -> A -> Prop) l x : StronglySorted R l -> (forall y, In y l -> R y x) -> StronglySorted R (l ++ [x]).
Proof.
  induction 1 as [|y l S IH F]; intros H; cbn [app]; [repeat constructor|]. constructor; [apply IH; intros; apply H; right; auto|].
  apply Forall_app. split; auto. constructor; auto. apply H. left. auto.
Qed.

Section Gra.
  Variables (a : pairs) (n : nat) (adj : nat -> nat -> Prop).
  Hypothesis GR : gra a n adj.
  Variables (lr full : bool).
  Notation nv := (n + 1).
  Let HC := gra_ctx a n adj GR.
  Let HS := gc_sorted _ _ HC.
  Let Hself := gc_self _ _ HC.

  Definition stored (g : graph) : Prop := forall v, v < nv -> exists s, stores a g v s.

  Lemma kept_cut g c1 c2 : memok (edge_bits g) -> stored g -> eb a nv <= c1 -> c1 <= c2 ->
    kept a nv (set_cur g c1) (set_cur (set_mem g (cut c2 (edge_bits g))) c2).
  Proof.
    intros M ST H1 H2. split; auto.
    - cbn [set_cur set_mem edge_bits]. apply cut_length.
    - cbn [set_cur set_mem edge_bits]. apply cut_ok. auto.
    - intros i Hi. cbn [set_cur set_mem edge_bits search_cur] in *. apply cut_low. lia.
    - intros v Hv. destruct (ST v Hv) as (s & K & R & R'). exists s, K. split; auto. cbn [set_cur set_mem edge_bits].
      eapply rep_nth; [|apply cut_length|exact R]. intros i Hi. apply cut_low. pose proof (block_end a nv v Hv). lia.
  Qed.

  Lemma kept_self g c1 : memok (edge_bits g) -> stored g -> kept a nv (set_cur g c1) g.
  Proof. intros M ST. split; auto. Qed.

  Lemma est_rebase k g0 g0' g en N fs : search_cur g0' = search_cur g0 -> max_degree g0' = max_degree g0 -> kept a nv g0' g ->
    est a nv lr k g0 g en N fs -> est a nv lr k g0' g en N fs.
  Proof. intros E1 E2 KE (_ & X). split; auto. rewrite E1, E2. exact X. Qed.

  (** What is left to the iterator, and what it has returned. *)
  Definition items_ok (k : nat) (en : enum) (l : list (list nat)) (fs : list frame) : Prop :=
    NoDup l /\ (forall d, In d l -> pend a nv k 1 [] d /\ ~ pend a nv k (e_cur en) fs d)
    /\ (forall d, pend a nv k (e_cur en) fs d -> pend a nv k 1 [] d)
    /\ (full = true -> forall d, pend a nv k 1 [] d -> In d l \/ pend a nv k (e_cur en) fs d)
    /\ StronglySorted (prior a nv k) l /\ (forall d d', In d l -> pend a nv k (e_cur en) fs d' -> prior a nv k d d').

  (** The iterator [x] owns the scratch space from [c1] to [c2]. *)
  Definition slot (g : graph) (c1 c2 : nat) (x : loop) : Prop :=
    let '(mkL k en l) := x in
    (l = [] /\ en = new_enum k /\ c2 = c1)
    \/ (k = 1 /\ l <> [] /\ e_size en = 1 /\ c2 = c1 /\ 1 <= e_cur en <= nv /\ l = map (fun v => [v]) (seq 1 (e_cur en - 1)))
    \/ (2 <= k /\ l <> [] /\ c1 <= c2 <= c1 + k * words (max_degree g)
        /\ exists N fs, est a nv lr k (set_cur g c1) (set_cur (set_mem g (cut c2 (edge_bits g))) c2) en N fs /\ items_ok k en l fs).

  Fixpoint stacked (g : graph) (st : list loop) (c : nat) : Prop :=
    match st with
    | [] => c = search_start g
    | x :: st => exists c1, slot g c1 c x /\ stacked g st c1
    end.

  Lemma slot_bounds g c1 c2 x : slot g c1 c2 x -> c1 <= c2 <= c1 + (match it_items x with [] => 0 | _ => it_size x end) * words (max_degree g).
  Proof.
    destruct x as [k en l]. cbn [it_items it_size]. intros [(-> & _ & ->)|[(_ & _ & _ & -> & _)|(_ & NE & B & _)]]; [lia|lia|].
    destruct l; [congruence|auto].
  Qed.

  Lemma stacked_bounds g st : forall c, stacked g st c -> search_start g <= c <= search_start g + total st * words (max_degree g).
  Proof.
    induction st as [|x st IH]; intros c H; cbn [stacked total] in *; [lia|].
    destruct H as (c1 & S & H). specialize (IH c1 H). pose proof (slot_bounds g c1 c x S). rewrite Nat.mul_add_distr_r. lia.
  Qed.

  Lemma slot_move g g' c1 c2 x : max_degree g' = max_degree g -> length (edge_bits g') = length (edge_bits g) ->
    memok (edge_bits g') -> stored g' -> eb a nv <= c1 -> (forall i, eb a nv <= i < c2 -> nth i (edge_bits g') 0%N = nth i (edge_bits g) 0%N) ->
    slot g c1 c2 x -> slot g' c1 c2 x.
  Proof.
    intros ED EL MO ST HE SM. destruct x as [k en l]. intros [H|[H|(H1 & H2 & H3 & N & fs & H4 & H5)]]; [left; auto|right; left; auto|right; right].
    split; auto. split; auto. split; [rewrite ED; auto|]. exists N, fs. split; auto.
    destruct H4 as (KE & Z & L & X). split; [apply kept_cut; auto; lia|]. split; auto. split; auto.
    cbn [set_cur set_mem edge_bits search_cur max_degree] in *. rewrite ED.
    assert (SC : forall i, c1 <= i -> nth i (cut c2 (edge_bits g')) 0%N = nth i (cut c2 (edge_bits g)) 0%N).
    { intros i Hi. destruct (Nat.lt_ge_cases i c2); [rewrite !cut_low by auto; apply SM; lia|]. rewrite !cut_high; auto. }
    destruct X as [(X1 & X2 & X3)|(X1 & X2 & X3 & X4 & X5)]; [left|right].
    - split; auto. split; auto. eapply (arena_ext a nv); [auto|exact X2|apply cut_ok; auto|rewrite !cut_length; auto|exact SC].
    - split; auto. split; auto. split; auto. split; auto. intros i Hi. rewrite SC by auto. apply X4. auto.
  Qed.

  Lemma stacked_move g g' st : max_degree g' = max_degree g -> search_start g' = search_start g -> length (edge_bits g') = length (edge_bits g) ->
    memok (edge_bits g') -> stored g' -> eb a nv <= search_start g ->
    forall c, (forall i, eb a nv <= i < c -> nth i (edge_bits g') 0%N = nth i (edge_bits g) 0%N) -> stacked g st c -> stacked g' st c.
  Proof.
    intros ED ES EL MO ST HE. induction st as [|x st IH]; intros c SM H; cbn [stacked] in *; [congruence|].
    destruct H as (c1 & S & H). exists c1. pose proof (stacked_bounds g st c1 H). pose proof (slot_bounds g c1 c x S). split.
    - eapply slot_move; eauto. lia.
    - apply IH; auto. intros i Hi. apply SM. lia.
  Qed.

  (** ** The invariant *)
  Record lgraph (st : list loop) (g : graph) (mcs : nat -> nat) : Prop := {
    lg_shape : shape a nv g mcs;
    lg_eb : eb a nv <= search_start g;
    lg_room : exists B, (forall k, k < nv -> bound a k <= B /\ rlen a k <= max_degree g)
      /\ search_start g + 2 * (B + 1) * words (max_degree g) <= length (edge_bits g);
    lg_bits : stored g;
    lg_loc : CUR_MAX_LOC g < nv;
    lg_nz : nz a g;
    lg_zero : zero_from (edge_bits g) (search_cur g);
    lg_stack : stacked g st (search_cur g);
    lg_full : full = true -> wide a nv g /\ svalid a nv mcs
  }.

  Definition linv (st : list loop) (q : pygraph) : Prop :=
    exists g mcs m cu fin, q = mkP (Some g) n m cu fin /\ lgraph st g mcs.

  Lemma roomleft_room st g mcs st' c : lgraph st g mcs -> roomleft n adj st' -> stacked g st' c -> roomy true a nv c g.
  Proof.
    intros L (d & D & F) S. destruct (lg_room _ _ _ L) as (B & H1 & H2). exists B. split; auto.
    pose proof (stacked_bounds g st' c S) as SB.
    assert (LD : length d <= B).
    { destruct d as [|x d]; [simpl; lia|]. destruct (clique_rooted a n adj GR (x :: d) D ltac:(discriminate)) as (v & K & Hv & _ & R & P & E & _).
      rewrite <- E. etransitivity; [apply (rooted_bound a n); auto; lia|]. apply H1. lia. }
    assert (total st' * words (max_degree g) <= (B + 1) * words (max_degree g)) by (apply Nat.mul_le_mono_r; lia).
    rewrite <- Nat.mul_assoc in *. lia.
  Qed.

  Lemma lgraph_good st g mcs : lgraph st g mcs -> roomleft n adj st -> goodR true a nv g mcs.
  Proof.
    intros L F. split; [split|].
    - apply L.
    - pose proof (stacked_bounds g st _ (lg_stack _ _ _ L)). pose proof (lg_eb _ _ _ L). lia.
    - eapply roomleft_room; eauto. apply L.
    - apply L.
    - apply L.
    - apply L.
  Qed.

  Lemma has_clique : exists d, clique n adj d /\ 0 <= length d + 1.
  Proof. exists []. split; [|lia]. split; [constructor|]. split; [intros v []|intros u v []]. Qed.

  Lemma pend_clique k d : pend a nv k 1 [] d -> clique n adj d /\ length d = k /\ ~ missed a d.
  Proof.
    intros (v & K & Hv & T & -> & [L|[_ []]]). destruct (target_clique a n adj GR v k K ltac:(lia) T) as [C1 C2]. split; auto. split; auto.
    intros (M1 & M2). destruct T as (R & _). destruct (decode_before a nv HC v K 1 Hv R M1) as [|B1]; [lia|].
    destruct (M2 v (decode_root a nv HC v K Hv R)) as [|B2]; [lia|]. exact (before_asym a _ _ B1 B2).
  Qed.

  Lemma clique_pend k d : 1 <= k -> clique n adj d -> length d = k -> ~ missed a d -> pend a nv k 1 [] d.
  Proof.
    intros Hk D L NM. destruct (clique_rooted a n adj GR d D) as (v & K & Hv & I & R & P & EC & ED); [intros ->; simpl in L; lia|].
    exists v, K. split; [lia|]. split; [split; auto; split; auto; congruence|]. split; [exact ED|]. left.
    destruct (Nat.eq_dec v 1) as [->|]; [|lia]. exfalso. apply NM. split; auto. intros u Iu.
    apply (decode_before a nv HC 1 K u); auto; [lia|]. unfold decode. rewrite <- ED. exact Iu.
  Qed.

  (** The innermost iterator, seen by the enumerator. *)
  Lemma slot_est g mcs st k en l : lgraph (mkL k en l :: st) g mcs -> 2 <= k ->
    exists c1 N fs, stacked g st c1 /\ est a nv lr k (set_cur g c1) g en N fs /\ items_ok k en l fs.
  Proof.
    intros L Hk. destruct (lg_stack _ _ _ L) as (c1 & S & ST). exists c1.
    pose proof (kept_self g c1 (sh_mem _ _ _ _ (lg_shape _ _ _ L)) (lg_bits _ _ _ L)) as KS.
    destruct S as [(-> & -> & E)|[(E & _)|(_ & _ & B & N & fs & ES & IO)]]; [|lia|].
    - exists ((nv - 1) * 2 ^ (max_degree g + 2)), []. split; auto. split.
      + split; [exact KS|]. split; auto. split; [cbn; lia|]. right. do 2 (split; auto). split; [auto|]. split; [|auto].
        cbn [set_cur search_cur]. rewrite <- E. apply (lg_zero _ _ _ L).
      + split; [constructor|]. split; [intros d []|]. split; auto. split; auto. split; [constructor|intros d d' []].
    - exists N, fs. split; auto. split; auto.
      rewrite (cut_id _ _ (lg_zero _ _ _ L)) in ES. replace (set_cur (set_mem g (edge_bits g)) (search_cur g)) with g in ES by (destruct g; reflexivity).
      exact ES.
  Qed.

  (** ** One step of the innermost iterator *)
  Lemma linv_next st q k en l : linv (mkL k en l :: st) q -> roomleft n adj st ->
    wp (next_clique lr q en) (fun r => let '(q', en', x) := r in
      match x with
      | Ret c => linv (mkL k en' (l ++ [c]) :: st) q' /\ clique n adj c /\ length c = k /\ ~ In c l /\ (2 <= k -> ~ missed a c)
      | Raise y => y = EStopIteration /\ linv st q'
           /\ (full = true -> forall d, clique n adj d -> length d = k -> 1 <= k -> (2 <= k -> ~ missed a d) -> In d l)
      end).
  Proof.
    intros (g & mcs & m & cu & fin & -> & L) F. pose proof (lg_shape _ _ _ L) as SH. pose proof (lg_eb _ _ _ L) as HE.
    assert (REST : forall g' c1, kept a nv (set_cur g c1) g' -> stacked g st c1 -> search_cur g' = c1 -> zero_from (edge_bits g') c1 ->
              lgraph st g' mcs).
    { intros g' c1 KE ST EC ZF. pose proof (stacked_bounds g st c1 ST) as SB.
      assert (SH1 : shape a nv (set_cur g c1) mcs) by (destruct SH; split; auto).
      pose proof (kept_shape a nv (set_cur g c1) mcs SH1 g' KE) as KS.
      pose proof (ke_core _ _ _ _ KE) as CO. unfold core in CO. inversion CO.
      split; auto.
      - lia.
      - destruct (lg_room _ _ _ L) as (B & HB1 & HB2). exists B. rewrite (ke_len _ _ _ _ KE). cbn [set_cur edge_bits].
        replace (max_degree g') with (max_degree g) by auto. replace (search_start g') with (search_start g) by auto. split; auto.
      - exact (ke_bits _ _ _ _ KE).
      - rewrite (ke_loc _ _ _ _ KE). apply (lg_loc _ _ _ L).
      - destruct (lg_nz _ _ _ L) as [Z1 Z2]. split; rewrite (ke_loc _ _ _ _ KE); auto. rewrite (ke_size _ _ _ _ KE). auto.
      - rewrite EC. auto.
      - rewrite EC. apply (stacked_move g g' st); auto.
        + exact (ke_len _ _ _ _ KE).
        + apply (sh_mem _ _ _ _ KS).
        + exact (ke_bits _ _ _ _ KE).
        + exact (ke_low _ _ _ _ KE).
      - intros FU. destruct (lg_full _ _ _ L FU) as [W V]. split; auto. unfold wide. replace (CLIQUE_LIMIT g') with (CLIQUE_LIMIT g) by auto. exact W. }
    destruct (Nat.le_gt_cases 2 k) as [Hk|Hk].
    - destruct (slot_est g mcs st k en l L Hk) as (c1 & N & fs & ST & ES & IO).
      pose proof (stacked_bounds g st c1 ST) as SB. destruct (roomleft_room _ g mcs st c1 L F ST) as (B & R1 & R2).
      assert (SH1 : shape a nv (set_cur g c1) mcs) by (destruct SH; split; auto).
      assert (ROOM : forall v, v < nv -> 2 <= mcs v -> search_cur (set_cur g c1) + (bound a v + 1) * words (rlen a v) <= length (edge_bits (set_cur g c1))
                 /\ rlen a v <= max_degree (set_cur g c1)).
      { intros v Hv _. cbn [set_cur search_cur edge_bits max_degree]. destruct (R1 v Hv) as [R3 R4]. split; auto.
        pose proof (words_mono _ _ R4). assert ((bound a v + 1) * words (rlen a v) <= (B + 1) * words (max_degree g)) by (apply Nat.mul_le_mono; lia).
        lia. }
      pose proof (en_process_graph_spec a nv lr k (set_cur g c1) mcs HC SH1 ltac:(cbn [set_cur search_cur]; lia) ROOM Hk g en N fs ES) as W.
      unfold next_clique. cbn [p_G p_nvert]. apply wp_bind. eapply wp_mono; [exact W|]. clear W.
      intros [[g1 en1] v] [(Hv & N1 & fs1 & K & LT & ES1 & T & RP & P0 & P1 & P2)|(Hv & KE & SC & ZF & E1 & E2 & E3 & P2)].
      + destruct (Nat.ltb_spec n v) as [|_]; [lia|]. pose proof ES1 as (KE & Z1 & C1 & X1).
        pose proof (kept_shape a nv (set_cur g c1) mcs SH1 g1 KE) as SHg.
        rewrite (stored_decode a n adj GR g1 mcs v K SHg ltac:(lia) RP). cbn [bind]. apply wp_ok.
        destruct IO as (I1 & I2 & I3 & I4 & I5 & I6).
        pose proof (I3 _ P0) as PP. destruct (pend_clique k _ PP) as (Q1 & Q2 & Q3).
        split; [|split; [auto|split; [auto|split; [|auto]]]].
        2: { intros I. apply (proj2 (I2 _ I)). exact P0. }
        exists g1, mcs, m, cu, fin. split; auto.
        pose proof (ke_core _ _ _ _ KE) as CO. unfold core in CO. inversion CO.
        assert (EC : c1 <= search_cur g1 <= c1 + k * words (max_degree g1) /\ zero_from (edge_bits g1) (search_cur g1)).
        { destruct X1 as [(X2 & AR & _ & _ & X3 & _)|(_ & _ & X2 & X3 & _)].
          - cbn [set_cur search_cur] in AR. rewrite (ar_sc _ _ _ _ _ _ _ _ _ _ AR). split.
            + destruct (R1 (e_cur en1) X2) as [_ R4]. replace (max_degree g1) with (max_degree g) by auto. pose proof (words_mono _ _ R4).
              split; [lia|]. apply Nat.add_le_mono_l, Nat.mul_le_mono; lia.
            + rewrite <- (ar_sc _ _ _ _ _ _ _ _ _ _ AR). apply (ar_zero _ _ _ _ _ _ _ _ _ _ AR).
          - cbn [set_cur search_cur] in X2, X3. rewrite X2. split; [lia|exact X3]. }
        destruct EC as [EC ZF].
        split; auto.
        * lia.
        * destruct (lg_room _ _ _ L) as (B' & HB1 & HB2). exists B'. rewrite (ke_len _ _ _ _ KE). cbn [set_cur edge_bits].
          replace (max_degree g1) with (max_degree g) by auto. replace (search_start g1) with (search_start g) by auto. split; auto.
        * exact (ke_bits _ _ _ _ KE).
        * rewrite (ke_loc _ _ _ _ KE). apply (lg_loc _ _ _ L).
        * destruct (lg_nz _ _ _ L) as [Z2 Z3]. split; rewrite (ke_loc _ _ _ _ KE); auto. rewrite (ke_size _ _ _ _ KE). auto.
        * cbn [stacked]. exists c1. split.
          -- right. right. split; auto. split; [destruct l; discriminate|]. split; auto. exists N1, fs1. split.
             ++ rewrite (cut_id _ _ ZF). replace (set_cur (set_mem g1 (edge_bits g1)) (search_cur g1)) with g1 by (destruct g1; reflexivity).
                eapply est_rebase; [| | |exact ES1]; auto. apply kept_self; [apply (sh_mem _ _ _ _ SHg)|exact (ke_bits _ _ _ _ KE)].
             ++ split; [|split; [|split; [|split; [|split]]]].
                ** apply (Permutation_NoDup (Permutation_cons_append l (decode a v K))). constructor; auto. intros I. apply (proj2 (I2 _ I)). exact P0.
                ** intros d I. apply in_app_iff in I. destruct I as [I|[<-|[]]].
                   --- destruct (I2 d I) as [J1 J2]. split; auto. intros P. apply P1 in P. tauto.
                   --- split; auto. intros P. apply P1 in P. tauto.
                ** intros d P. apply I3. apply P1. auto.
                ** intros FU d P. destruct (I4 FU d P) as [I|P3]; [left; apply in_app_iff; auto|].
                   destruct (P2 (proj2 (lg_full _ _ _ L FU)) d P3) as [->|P4]; auto. left. apply in_app_iff. right. left. auto.
                ** apply sorted_snoc; auto.
                ** intros d d' I P. apply in_app_iff in I. destruct (P1 d' P) as (J1 & J2 & J3). destruct I as [I|[<-|[]]]; auto.
          -- apply (stacked_move g g1 st); auto.
             ++ exact (ke_len _ _ _ _ KE).
             ++ apply (sh_mem _ _ _ _ SHg).
             ++ exact (ke_bits _ _ _ _ KE).
             ++ exact (ke_low _ _ _ _ KE).
        * intros FU. destruct (lg_full _ _ _ L FU) as [W V]. split; auto. unfold wide. replace (CLIQUE_LIMIT g1) with (CLIQUE_LIMIT g) by auto. exact W.
      + destruct (Nat.ltb_spec n v) as [_|]; [|lia]. apply wp_ok. split; auto. split.
        * exists g1, mcs, m, cu, fin. split; auto. eapply REST; eauto.
        * intros FU d D LD _ NM. destruct IO as (I1 & I2 & I3 & I4 & _).
          destruct (I4 FU d (clique_pend k d ltac:(lia) D LD (NM Hk))) as [I|P]; auto.
          destruct (P2 (proj2 (lg_full _ _ _ L FU)) d P).
    - assert (S0 : stacked g st (search_cur g)).
      { destruct (lg_stack _ _ _ L) as (c1 & [(_ & _ & E)|[(_ & _ & _ & E & _)|(E & _)]] & S); [rewrite E; auto|rewrite E; auto|lia]. }
      assert (L0 : lgraph st g mcs) by (destruct L; split; auto).
      pose proof (lgraph_good st g mcs L0 F) as G.
      assert (EN : e_size en = k /\ (k = 1 -> 1 <= e_cur en <= nv /\ l = map (fun v => [v]) (seq 1 (e_cur en - 1))) /\ (k = 0 -> l = [])).
      { destruct (lg_stack _ _ _ L) as (c1 & [(-> & -> & E)|[(E0 & E1 & E2 & E & E3 & E4)|(E & _)]] & S); [|split; [lia|split; [auto|lia]]|lia].
        split; auto. split; auto. intros ->. split; [cbn; lia|]. reflexivity. }
      destruct EN as (EN & E1 & E0).
      eapply wp_mono; [apply (next_small a n adj GR (half := true) g mcs lr m cu fin en G); lia|].
      intros [[q en'] c] (Z1 & Z2 & Z3 & g' & -> & G' & KE & EC).
      assert (ZF : zero_from (edge_bits g') (search_cur g')) by apply G'.
      assert (L' : lgraph st g' mcs).
      { apply (REST g' (search_cur g)); auto. - replace (set_cur g (search_cur g)) with g by (destruct g; reflexivity). exact KE. - rewrite <- EC. exact ZF. }
      destruct c as [c|x].
      + destruct (Nat.eq_dec k 0) as [->|]; [specialize (Z2 EN); discriminate|]. assert (k = 1) as -> by lia. destruct (E1 eq_refl) as [E2 E3].
        destruct (Z3 EN ltac:(lia)) as (-> & Z4 & Z5).
        assert (EL : l ++ [[e_cur en]] = map (fun v => [v]) (seq 1 (e_cur en' - 1))).
        { rewrite E3, Z5. replace (e_cur en + 1 - 1) with (e_cur en - 1 + 1) by lia. rewrite seq_app, map_app. cbn [seq map].
          replace (1 + (e_cur en - 1)) with (e_cur en) by lia. reflexivity. }
        split; [|split; [|split; [auto|split; [|lia]]]].
        * exists g', mcs, m, cu, fin. split; auto. destruct L'. split; auto. cbn [stacked]. exists (search_cur g'). split; auto.
          right. left. split; auto. split; [destruct l; discriminate|]. split; [congruence|]. split; auto. split; [lia|auto].
        * split; [repeat constructor|]. split; [intros v [<-|[]]; lia|]. intros u v [<-|[]] [<-|[]]; congruence.
        * rewrite E3. intros I. apply in_map_iff in I. destruct I as (v & I1 & I2). injection I1 as ->. apply in_seq in I2. lia.
      + assert (x = EStopIteration) as ->.
        { destruct (Nat.eq_dec k 0) as [->|]; [specialize (Z2 EN); congruence|]. assert (k = 1) as -> by lia. destruct (E1 eq_refl). apply Z3; auto; lia. }
        split; auto. split; [exists g', mcs, m, cu, fin; auto|]. intros _ d D LD K1 _. assert (k = 1) as -> by lia. destruct (E1 eq_refl) as [E2 E3].
        destruct (Z3 EN ltac:(lia)) as [_ Z4]. destruct d as [|v [|? ?]]; try discriminate. rewrite E3. apply in_map_iff. exists v. split; auto. apply in_seq.
        destruct D as (_ & D & _). specialize (D v (or_introl eq_refl)). lia.
  Qed.

  Lemma linv_get st q e lb ub heur dfs cont : 1 <= n -> linv st q -> roomleft n adj st -> permutes e -> untimed e ->
    (full = true -> forall d, clique n adj d -> length d <= ub) ->
    wp (get_max_clique e q lb ub heur dfs cont) (fun r => linv st (fst r) /\
      match snd r with Ret c => clique n adj c /\ lb <= length c | Raise x => x = EBounds end).
  Proof.
    intros Hn (g & mcs & m & cu & fin & -> & L) F HP HU UB. pose proof (untimed_never_late e HU) as NL.
    pose proof (lgraph_good st g mcs L F) as G.
    eapply wp_mono; [apply (get_core_gen a n adj GR true e g mcs m cu fin lb ub heur dfs cont (fun _ => HU) (never_late_lawful e lb HP NL) Hn G (lg_nz _ _ _ L))|].
    intros [p' r] (g' & mcs' & cur' & c & E & [G' ZF] & Z' & C' & CC & S & ER & _ & _ & SV). cbn [fst snd] in *. subst p' r.
    split; [|destruct (Nat.ltb_spec (length c) lb); auto].
    exists g', mcs', m, cur', (n <=? cur'). split; auto.
    pose proof (ca_core _ _ _ _ C') as CO. unfold core in CO. inversion CO.
    assert (ED : max_degree g' = max_degree g) by auto. assert (ES : search_start g' = search_start g) by auto.
    assert (EC : search_cur g' = search_cur g) by exact (ca_cur _ _ _ _ C').
    assert (EL : length (edge_bits g') = length (edge_bits g)) by exact (ca_len _ _ _ _ C').
    split; auto.
    - apply G'.
    - rewrite ES. apply L.
    - destruct (lg_room _ _ _ L) as (B & HB1 & HB2). exists B. rewrite ED, ES, EL. auto.
    - exact (go_bits _ _ _ _ _ G').
    - apply G'.
    - rewrite EC. apply (stacked_move g g' st); auto.
      + apply (sh_mem _ _ _ _ (go_shape _ _ _ _ _ G')).
      + exact (go_bits _ _ _ _ _ G').
      + apply L.
      + exact (ca_low _ _ _ _ C').
      + apply L.
    - intros FU. destruct (lg_full _ _ _ L FU) as [W V]. pose proof (wide_prepared a n adj GR g lb ub W (UB FU)) as W'.
      split; [|auto]. unfold wide. rewrite (core_lim _ _ (ca_core _ _ _ _ C')). exact W'.
  Qed.

  Lemma lgraph_reset st g mcs : lgraph st g mcs -> lgraph st (set_best g 1 (CUR_MAX_LOC g)) mcs.
  Proof.
    intros L. pose proof (lg_stack _ _ _ L) as S. destruct L as [L1 L2 L3 L4 L5 [L6 L6'] L7 L8 L9]. split; auto.
    - destruct L1. split; auto.
    - split; auto. discriminate.
    - apply (stacked_move g _ st); auto. apply (sh_mem _ _ _ _ L1).
  Qed.

  Lemma linv_reset st q q' : linv st q -> reset_search q = Ok q' -> linv st q'.
  Proof.
    intros (g & mcs & m & cu & fin & -> & L) E. injection E as <-. eexists _, mcs, m, 0, false. split; [reflexivity|]. apply lgraph_reset. auto.
  Qed.

  Lemma linv_begin st q k : linv st q -> linv (mkL k (new_enum k) [] :: st) q.
  Proof.
    intros (g & mcs & m & cu & fin & -> & L). exists g, mcs, m, cu, fin. split; auto. destruct L. split; auto.
    exists (search_cur g). split; auto. left. auto.
  Qed.

  Lemma loops_linv p st q : 1 <= n -> linv [] p -> loops n adj lr full p st q -> linv st q.
  Proof.
    intros Hn H0. induction 1 as [|st q e lb ub heur dfs cont q' r H IH F HP HU UB E|st q q' H IH E|st q k H IH|st q k en l q' en' c H IH F E|st q k en l q' en' x H IH F E].
    - auto.
    - pose proof (linv_get st q e lb ub heur dfs cont Hn IH F HP HU UB) as K. rewrite E in K. apply K.
    - eapply linv_reset; eauto.
    - apply linv_begin. auto.
    - pose proof (linv_next st q k en l IH F) as K. rewrite E in K. apply K.
    - pose proof (linv_next st q k en l IH F) as K. rewrite E in K. apply K.
  Qed.

  (** The cliques of an iterator. *)
  Lemma slot_items g c1 c2 k en l : slot g c1 c2 (mkL k en l) -> NoDup l /\ forall d, In d l -> clique n adj d /\ length d = k /\ (2 <= k -> ~ missed a d).
  Proof.
    intros [(-> & _)|[(-> & _ & _ & _ & H & ->)|(Hk & _ & _ & N & fs & _ & I1 & I2 & _)]].
    - split; [constructor|intros d []].
    - split.
      + apply FinFun.Injective_map_NoDup; [intros x y E; congruence|apply seq_NoDup].
      + intros d I. apply in_map_iff in I. destruct I as (v & <- & I). apply in_seq in I. split; [|split; [auto|lia]].
        split; [repeat constructor|]. split; [intros u [<-|[]]; lia|]. intros u v' [<-|[]] [<-|[]]; congruence.
    - split; auto. intros d I. destruct (pend_clique k d (proj1 (I2 d I))) as (P1 & P2 & P3). auto.
  Qed.

  Lemma pend_listed k d d' : prior a nv k d d' -> pend a nv k 1 [] d -> listed_before adj d d'.
  Proof.
    intros PR (v1 & K1 & Hv1 & T1 & E1 & [L|[_ []]]). apply (prior_listed a n adj GR k); auto. intros v K Hv T E.
    assert (v = v1); [|lia]. apply (decode_inj a nv HC v v1 K K1); auto; [apply T|apply T1|congruence].
  Qed.

  (** They are the first ones of any complete list in the right order. *)
  Lemma slot_prefix g c1 c2 k en l L : full = true -> slot g c1 c2 (mkL k en l) -> (k = 1 -> L = map (fun v => [v]) (seq 1 n)) ->
    (2 <= k -> (forall d, In d L <-> clique n adj d /\ length d = k /\ ~ missed a d) /\ StronglySorted (listed_before adj) L) ->
    exists rest, L = l ++ rest.
  Proof.
    intros FU S K1 K2. destruct S as [(-> & _)|[(-> & _ & _ & _ & H & ->)|(Hk & _ & _ & N & fs & _ & I1 & I2 & I3 & I4 & I5 & I6)]].
    - exists L. auto.
    - rewrite (K1 eq_refl). exists (map (fun v => [v]) (seq (e_cur en) (n - (e_cur en - 1)))). rewrite <- map_app. f_equal.
      replace n with (e_cur en - 1 + (n - (e_cur en - 1))) at 1 by lia. rewrite seq_app. repeat f_equal. lia.
    - destruct (K2 Hk) as [HL SL]. apply (sorted_prefix (listed_before adj)); auto.
      + intros x y Ix Iy. apply HL in Ix, Iy. apply (listed_asym a n adj GR); tauto.
      + assert (AL : forall d, In d l -> pend a nv k 1 [] d) by (intros d I; apply I2; auto). clear - I5 AL GR HC HS Hself.
        induction I5 as [|d l I5 IH F]; constructor; [apply IH; intros; apply AL; right; auto|].
        rewrite Forall_forall in *. intros d' I. apply (pend_listed k); auto. apply AL. left. auto.
      + intros d I. apply HL. apply pend_clique. apply I2; auto.
      + intros d I NI x Ix. apply (pend_listed k); [|apply I2; auto]. apply I6; auto. apply HL in I. destruct I as (D1 & D2 & D3).
        destruct (I4 FU d (clique_pend k d ltac:(lia) D1 D2 D3)); tauto.
  Qed.

  Lemma stacked_items g st : forall c, stacked g st c -> forall x, In x st ->
    NoDup (it_items x) /\ forall d, In d (it_items x) -> clique n adj d /\ length d = it_size x /\ (2 <= it_size x -> ~ missed a d).
  Proof.
    induction st as [|y st IH]; intros c H x; cbn [stacked] in *; [intros []|]. destruct H as (c1 & S & H). intros [<-|I]; [|eapply IH; eauto].
    destruct y as [k en l]. eapply slot_items; eauto.
  Qed.
End Gra.

Lemma made_linv p n adj full lr : made p n adj -> has_edge adj -> storage_live p ->
  exists a, gra a n adj /\ 1 <= n /\ linv a n lr full [] p.
Proof.
  intros M HE LV. destruct (made_hinv p n adj M HE LV) as (a & cap & m & g & GR & B & -> & _ & [G ZF] & Z & W & S1 & _).
  exists a. split; auto. split; [apply (has_edge_n a n adj GR HE)|].
  exists g, (bound a), m, 0, false. split; auto.
  assert (SS : search_start g = search_cur g) by (rewrite (b_start _ _ _ _ B), (b_cur _ _ _ _ B); auto).
  split; auto.
  - apply G.
  - rewrite SS. apply G.
  - rewrite SS. apply (go_room _ _ _ _ _ G).
  - exact (go_bits _ _ _ _ _ G).
  - apply G.
  - cbn [stacked]. auto.
  - intros _. split; auto. apply bound_svalid.
Qed.

(** ** Statements *)
Lemma nest_search p n adj lr full st q e lb ub heur dfs cont : made p n adj -> has_edge adj -> storage_live p ->
  loops n adj lr full p st q -> roomleft n adj st -> permutes e -> untimed e ->
  ends_with (get_max_clique e q lb ub heur dfs cont) (fun r =>
    match snd r with Ret c => clique n adj c /\ lb <= length c | Raise x => x = EBounds end).
Proof.
  intros M HE LV H F HP HU. assert (H' : loops n adj lr false p st q).
  { clear - H. induction H; econstructor; eauto; discriminate. }
  destruct (made_linv p n adj false lr M HE LV) as (a & GR & Hn & I).
  eapply wp_mono; [apply (linv_get a n adj GR lr false st q e lb ub heur dfs cont Hn (loops_linv a n adj GR lr false p st q Hn I H') F HP HU); discriminate|].
  intros r [_ X]. exact X.
Qed.

Lemma nest_maximum p n adj lr st q q' e lb ub heur cont : made p n adj -> has_edge adj -> storage_live p ->
  loops n adj lr true p st q -> roomleft n adj st -> reset_search q = Ok q' -> permutes e -> untimed e ->
  (exists d, clique n adj d /\ lb < length d) -> (forall d, clique n adj d -> length d <= ub) ->
  ends_with (get_max_clique e q' lb ub heur true cont) (fun r => exists c, snd r = Ret c /\ maximum_clique n adj c).
Proof.
  intros M HE LV H F ER HP HU X UB. destruct (edge_clique p n adj M HE) as (d2 & D2 & L2).
  destruct (made_linv p n adj true lr M HE LV) as (a & GR & Hn & I).
  destruct (loops_linv a n adj GR lr true p st q Hn I H) as (g & mcs & m & cu & fin & -> & L). injection ER as <-.
  pose proof (lgraph_reset a n lr true st g mcs L) as L'.
  destruct (lg_full _ _ _ _ _ _ _ L' eq_refl) as [W V].
  apply (small_max_gen true a n adj _ mcs); auto.
  - exists d2. split; auto. lia.
  - apply (lgraph_good a n adj GR lr true st); auto.
  - apply (lg_nz _ _ _ _ _ _ _ L').
  - apply untimed_never_late. auto.
Qed.

Lemma nest_items p n adj lr full st q k en l : made p n adj -> has_edge adj -> storage_live p ->
  loops n adj lr full p st q -> In (mkL k en l) st ->
  NoDup l /\ forall d, In d l -> clique n adj d /\ length d = k /\ (2 <= k -> ~ first_at_1 adj d).
Proof.
  intros M HE LV H I. destruct (made_linv p n adj full lr M HE LV) as (a & GR & Hn & I0).
  destruct (loops_linv a n adj GR lr full p st q Hn I0 H) as (g & mcs & m & cu & fin & -> & L).
  destruct (stacked_items a n adj GR lr full g st _ (lg_stack _ _ _ _ _ _ _ L) _ I) as [N C]. split; auto.
  intros d Id. destruct (C d Id) as (C1 & C2 & C3). split; auto. split; auto. intros Hk B. apply (C3 Hk). apply (missed_iff a n adj GR d C1). auto.
Qed.

Lemma nest_next p n adj lr full st q k en l : made p n adj -> has_edge adj -> storage_live p ->
  loops n adj lr full p (mkL k en l :: st) q -> roomleft n adj st ->
  ends_with (next_clique lr q en) (fun r =>
    match snd r with
    | Ret c => clique n adj c /\ length c = k /\ ~ In c l /\ (2 <= k -> ~ first_at_1 adj c)
    | Raise x => x = EStopIteration /\ (full = true -> forall d, clique n adj d -> length d = k -> 1 <= k -> (2 <= k -> ~ first_at_1 adj d) -> In d l)
    end).
Proof.
  intros M HE LV H F. destruct (made_linv p n adj full lr M HE LV) as (a & GR & Hn & I0).
  pose proof (loops_linv a n adj GR lr full p _ q Hn I0 H) as I.
  eapply wp_mono; [apply (linv_next a n adj GR lr full st q k en l I F)|].
  intros [[q' en'] [c|x]]; cbn [snd].
  - intros (_ & C1 & C2 & C3 & C4). split; auto. split; auto. split; auto. intros Hk B. apply (C4 Hk). apply (missed_iff a n adj GR c C1). auto.
  - intros (-> & _ & C). split; auto. intros FU d D LD K1 NB. apply (C FU d D LD K1). intros Hk B. apply (NB Hk). apply (missed_iff a n adj GR d D). auto.
Qed.

Lemma one_roomleft p n adj lr full x q : made p n adj -> has_edge adj -> storage_live p -> loops n adj lr full p [x] q -> roomleft n adj [x].
Proof.
  intros M HE LV H. destruct x as [k en [|c l]].
  - exists []. split; [split; [constructor|split; [intros v []|intros u v []]]|]. cbn [total it_items]. lia.
  - destruct (nest_items p n adj lr full _ q k en (c :: l) M HE LV H (or_introl eq_refl)) as [_ C]. destruct (C c (or_introl eq_refl)) as (C1 & C2 & _).
    exists c. split; auto. cbn [total it_items it_size]. lia.
Qed.

Lemma outer_roomleft p n adj lr full x y q : made p n adj -> has_edge adj -> storage_live p -> loops n adj lr full p [y; x] q -> roomleft n adj [x].
Proof.
  intros M HE LV H. destruct x as [k en [|c l]].
  - exists []. split; [split; [constructor|split; [intros v []|intros u v []]]|]. cbn [total it_items]. lia.
  - destruct (nest_items p n adj lr full _ q k en (c :: l) M HE LV H (or_intror (or_introl eq_refl))) as [_ C]. destruct (C c (or_introl eq_refl)) as (C1 & C2 & _).
    exists c. split; auto. cbn [total it_items it_size]. lia.
Qed.

Lemma one_search p n adj lr full x q e lb ub heur dfs cont : made p n adj -> has_edge adj -> storage_live p ->
  loops n adj lr full p [x] q -> permutes e -> untimed e ->
  ends_with (get_max_clique e q lb ub heur dfs cont) (fun r =>
    match snd r with Ret c => clique n adj c /\ lb <= length c | Raise x => x = EBounds end).
Proof. intros M HE LV H. apply (nest_search p n adj lr full [x]); auto. eapply one_roomleft; eauto. Qed.

Lemma two_next p n adj lr full x q k en l : made p n adj -> has_edge adj -> storage_live p ->
  loops n adj lr full p [mkL k en l; x] q ->
  ends_with (next_clique lr q en) (fun r =>
    match snd r with
    | Ret c => clique n adj c /\ length c = k /\ ~ In c l /\ (2 <= k -> ~ first_at_1 adj c)
    | Raise x => x = EStopIteration /\ (full = true -> forall d, clique n adj d -> length d = k -> 1 <= k -> (2 <= k -> ~ first_at_1 adj d) -> In d l)
    end).
Proof. intros M HE LV H. apply (nest_next p n adj lr full [x]); auto. eapply outer_roomleft; eauto. Qed.
