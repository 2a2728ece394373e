(** HeurCount: the exact size the heuristic leaves, and vertices without neighbours (C104). *)
From Verif Require Import Base MBits MUtils MGraph MHeur MStack MRec MEnum MApi Spec SpecBits SpecNW SpecCont SpecOrder SpecFirst SpecLone BaseFacts BitsFacts SetFacts SortFacts RowFacts ConstructFacts CardFacts LoadFacts SearchBase StackFacts RecFacts HeurFacts SearchFacts SatFacts CliqueFacts ApiFacts EnumFacts EnumApi SearchProps OrderFacts FirstFacts LoneFacts.
From Coq Require Import Sorting.Sorted Sorting.Permutation.
Local Open Scope nat_scope.
Local Arguments Nat.sub : simpl never.
Local Arguments Nat.mul : simpl never.

(** The vertices in turn, until the limit is reached. *)
Definition hturns (a : pairs) (srt : list vdata -> list vdata) (lim : nat) (l : list nat) (c : nat) : nat :=
  fold_left (fun c v => if lim <=? c then c else hstep a v srt c) l c.

Lemma hturns_stop a srt lim l c : lim <= c -> hturns a srt lim l c = c.
Proof. intros H. induction l as [|v l IH]; auto. cbn. replace (lim <=? c) with true by (symmetry; apply Nat.leb_le; auto). exact IH. Qed.

Section Count.
  Variables (a : pairs) (nv : nat).
  Hypothesis HC : gctx a nv.

  Let HS := gc_sorted _ _ HC.
  Let Hself := gc_self _ _ HC.

  Lemma hstep_bound srt v c : bound a v <= c -> hstep a v srt c = c.
  Proof.
    intros H. unfold hstep. change (bound a v) with (S (card (rlen a v) (candp a v))) in H.
    destruct (Nat.leb_spec (card (rlen a v) (candp a v)) c); [auto|lia].
  Qed.

  Lemma heur_count srt g0 : (forall l, Permutation (srt l) l) -> good a nv g0 (bound a) ->
    wp (heur_process_graph srt g0) (fun g =>
      CUR_MAX_SIZE g = hturns a srt (CLIQUE_LIMIT g0) (seq 0 nv) (hstep a (CUR_MAX_LOC g0) srt (CUR_MAX_SIZE g0))).
  Proof.
    intros HP G0. set (c0 := search_cur g0). set (D := max_degree g0). set (w := words D). set (mcs0 := bound a) in *.
    pose proof (go_loc _ _ _ _ _ (proj1 G0)) as GL.
    destruct (go_room _ _ _ _ _ (proj1 G0)) as (B & R1 & R2). fold D in R1, R2. fold w in R2. fold c0 in R2.
    assert (DP : 0 < D). { destruct (R1 _ GL) as [_ R]. pose proof (len_pos a nv HS Hself _ GL). lia. }
    assert (WP : 0 < w) by (apply words_pos; auto).
    assert (R3 : c0 + 2 * w <= length (edge_bits g0)).
    { assert (2 * w <= 2 * (B + 1) * w); [|lia]. apply Nat.mul_le_mono_r. lia. }
    unfold heur_process_graph. fold D. fold w.
    rewrite load_memory_ok by (fold c0; lia). cbn [bind].
    rewrite load_memory_ok by (cbn [set_cur search_cur edge_bits]; fold c0; lia). cbn [bind set_cur search_cur edge_bits max_degree CUR_MAX_LOC n_vert]. fold c0 D.
    set (gA := set_cur (set_cur g0 (c0 + w)) (c0 + w + w)).
    set (gB := set_cur gA c0).
    set (st := fun (r : graph * list vdata) => let g := fst r in
         length (snd r) = D /\ base a nv c0 g mcs0 /\ called a nv gB (set_cur g c0) /\ search_cur g = c0 + w + w).
    assert (SM : forall g nb, st (g, nb) -> max_degree g = D /\ n_vert g = nv /\ length (edge_bits g) = length (edge_bits g0) /\ CLIQUE_LIMIT g = CLIQUE_LIMIT g0).
    { intros g nb (_ & SB & SC & _). pose proof (ca_core _ _ _ _ SC) as E. unfold core in E. inversion E. split; auto.
      split; [apply (sh_nv _ _ _ _ (go_shape _ _ _ _ _ SB))|]. split; auto. exact (ca_len _ _ _ _ SC). }
    assert (KEY : forall g nb cur, cur < nv -> st (g, nb) ->
       wp (heur_process_vertex srt g nb cur (refer_from c0 D) (refer_from (c0 + w) D))
          (fun r => st r /\ CUR_MAX_SIZE (fst r) = hstep a cur srt (CUR_MAX_SIZE g))).
    { intros g nb cur Hc ST. destruct (SM g nb ST) as (M1 & M2 & M3 & M4). destruct ST as (S1 & S2 & S3 & S4). cbn [fst snd] in *.
      assert (HD : rlen a cur <= max_degree g) by (rewrite M1; apply R1; auto).
      pose proof (heur_process_vertex_spec a nv cur HC Hc srt g nb mcs0 c0 HP (go_shape _ _ _ _ _ S2) HD) as SP.
      rewrite M1 in SP. fold w in SP. eapply wp_mono; [apply SP; auto; [apply (go_eb _ _ _ _ _ S2)|lia]|].
      intros [g' nb'] (Q1 & Q2 & Q3 & Q4 & Q5 & Q6 & Q7). cbn [fst snd] in *.
      destruct (base_step a nv (half := false) (set_cur g c0) (set_cur g' c0) mcs0 cur Hc) as (mcs & B1 & B2 & B3 & B4 & B5); auto.
      { destruct S2 as [X1 X2 X3 X4 X5]. destruct X1. split; auto. split; auto. }
      assert (BB : base a nv c0 g' mcs0).
      { specialize (B5 Q3). destruct B5 as [X1 X2 X3 X4 X5]. destruct X1. split; auto. split; auto. }
      split; auto. unfold st. cbn [fst snd]. split; auto. split; auto. split; [eapply called_trans; [|exact S3|exact B2]; intros; apply S2|]. congruence. }
    assert (ST0 : st (gA, repeat (mkD 0 0 0) D)).
    { unfold st. cbn [fst snd]. rewrite repeat_length. split; auto. split; [|split].
      - destruct (proj1 G0) as [X1 X2 X3 X4 X5]. destruct X1. split; auto. split; auto.
      - apply called_refl.
      - reflexivity. }
    apply wp_bind. eapply wp_mono; [apply (KEY gA _ _ GL ST0)|].
    intros [g1 nb1] (ST1 & H1). cbn [fst snd] in *. change (CUR_MAX_SIZE gA) with (CUR_MAX_SIZE g0) in H1.
    destruct (SM _ _ ST1) as (M1 & M2 & M3 & M4). rewrite M2. rewrite <- H1.
    apply wp_bind.
    apply (wp_loopN_rel _ _ (fun s n => let '(g, nb, i) := s in n = nv - i /\ i <= nv /\ st (g, nb)
             /\ hturns a srt (CLIQUE_LIMIT g0) (seq 0 nv) (CUR_MAX_SIZE g1) = hturns a srt (CLIQUE_LIMIT g0) (seq i (nv - i)) (CUR_MAX_SIZE g)) _ nv); [| lia |].
    - split; [lia|]. split; [lia|]. split; auto. rewrite Nat.sub_0_r. reflexivity.
    - intros [[g nb] i] n (En & Hi & ST & Q). destruct (SM _ _ ST) as (N1 & N2 & N3 & N4). rewrite N2, N4.
      destruct ((i <? nv) && (CUR_MAX_SIZE g <? CLIQUE_LIMIT g0)) eqn:E.
      + apply andb_prop in E. destruct E as [E1 E2]. apply Nat.ltb_lt in E1, E2.
        assert (STEP : hturns a srt (CLIQUE_LIMIT g0) (seq i (nv - i)) (CUR_MAX_SIZE g)
           = hturns a srt (CLIQUE_LIMIT g0) (seq (i + 1) (nv - (i + 1))) (hstep a i srt (CUR_MAX_SIZE g))).
        { replace (nv - i) with (S (nv - (i + 1))) by lia. cbn [seq]. rewrite Nat.add_1_r. unfold hturns at 1. cbn [fold_left].
          replace (CLIQUE_LIMIT g0 <=? CUR_MAX_SIZE g) with false by (symmetry; apply Nat.leb_gt; auto). reflexivity. }
        assert (BG : base a nv c0 g mcs0) by (apply ST). rewrite (sh_vs _ _ _ _ (go_shape _ _ _ _ _ BG)). rewrite rd_vert by auto. cbn [bind mkvert vmcs].
        destruct (mcs0 i <=? CUR_MAX_SIZE g) eqn:E3.
        * apply Nat.leb_le in E3. apply wp_ok. exists (nv - (i + 1)). split; [lia|]. split; auto. split; [lia|]. split; auto.
          rewrite Q, STEP, hstep_bound by exact E3. reflexivity.
        * apply wp_bind. eapply wp_mono; [apply (KEY g nb i E1 ST)|].
          intros [g' nb'] (ST' & H'). cbn [fst snd] in *. apply wp_ok.
          exists (nv - (i + 1)). split; [lia|]. split; auto. split; [lia|]. split; auto. rewrite Q, STEP, H'. reflexivity.
      + apply wp_ok. destruct ST as (S1 & S2 & S3 & S4). cbn [fst snd] in *.
        eapply wp_mono; [apply clear_memory_spec; [apply (sh_mem _ _ _ _ (go_shape _ _ _ _ _ S2))|rewrite S4; lia]|].
        intros g' (m & -> & _). cbn [set_cur set_mem CUR_MAX_SIZE]. rewrite Q. apply andb_false_iff in E. destruct E as [E|E]; apply Nat.ltb_ge in E.
        * replace (nv - i) with 0 by lia. reflexivity.
        * symmetry. apply hturns_stop. exact E.
  Qed.
End Count.

(** ** The size of the answer *)
Section Answer.
  Variables (a : pairs) (n : nat) (adj : nat -> nat -> Prop).
  Hypothesis GR : gra a n adj.

  Definition hsize (srt : list vdata -> list vdata) (g : graph) (lb ub : nat) : nat :=
    hturns a srt (Nat.min ub (CLIQUE_LIMIT g)) (seq 0 (n + 1)) (hstep a (CUR_MAX_LOC g) srt lb).

  Lemma heuristic_size cap e g m lb ub cont : built a (n + 1) cap g -> has_edge adj -> bits_live g = true -> permutes e ->
    wp (get_max_clique e (mkP (Some g) n m 0 false) lb ub true false cont) (fun r => exists c,
      snd r = (if length c <? lb then Raise EBounds else Ret c)
      /\ length c = if lb <? hsize (srt_fun e) g lb ub then hsize (srt_fun e) g lb ub else 1).
  Proof.
    intros B HE HL HP. destruct (built_good a n adj GR cap g HE B HL) as (G & Z & WD & ST & _).
    pose proof (has_edge_n a n adj GR HE) as Hn. set (g0 := prepared g lb ub) in *. pose proof (gra_ctx a n adj GR) as HC.
    rewrite get_unfold by auto. replace (if cont && negb (0 =? 0) then false else true) with true by (destruct cont; auto). fold g0.
    pose proof (prepared_good a n g (bound a) lb ub G) as PG. fold g0 in PG.
    pose proof (heur_process_graph_spec a (n + 1) HC (gra_len0 a n adj GR) (srt_fun e) g0 (bound a) HP PG) as W.
    pose proof (heur_count a (n + 1) HC (srt_fun e) g0 HP PG) as W2.
    unfold find_max_cliques. destruct (heur_process_graph (srt_fun e) g0) as [g'| |]; cbn [ends_with] in W, W2; try contradiction.
    destruct W as (G' & C' & Z' & _). cbn [bind].
    assert (EH : CUR_MAX_SIZE g' = hsize (srt_fun e) g lb ub).
    { rewrite W2. unfold hsize, g0. cbn [prepared set_limit set_best CLIQUE_LIMIT CUR_MAX_LOC CUR_MAX_SIZE]. rewrite (b_max _ _ _ _ B). reflexivity. }
    pose proof (Z' (prepared_nz a g lb ub Z)) as ZZ.
    pose proof (proj1 G') as B'. pose proof (go_loc _ _ _ _ _ B') as L'.
    destruct (go_bits _ _ _ _ _ B' _ L') as (s & S).
    destruct (stored_clique_spec a n adj GR g' (bound a) (CUR_MAX_LOC g') s (go_shape _ _ _ _ _ B')) as (c & E1 & E2 & E3); auto.
    { destruct ZZ. lia. }
    subst s.
    assert (KEY : length c = if lb <? CUR_MAX_SIZE g' then CUR_MAX_SIZE g' else 1).
    { destruct (ca_best _ _ _ _ C') as [(X1 & X2 & X3)|(X1 & X2)]; unfold g0 in *; cbn [prepared set_limit set_best CUR_MAX_SIZE CUR_MAX_LOC edge_bits] in *;
        rewrite (b_max _ _ _ _ B) in *.
      - replace (lb <? CUR_MAX_SIZE g') with false by (symmetry; apply Nat.ltb_ge; lia).
        eapply stores_fun; [exact S|]. rewrite X2 in *. eapply stores_mem; [exact X3|lia|exact (ca_len _ _ _ _ C')|exact ST].
      - rewrite (stores_fun _ _ _ _ _ S X2). replace (lb <? CUR_MAX_SIZE g') with true by (symmetry; apply Nat.ltb_lt; lia). reflexivity. }
    rewrite EH in KEY.
    assert (FIN : forall k, wp (bind (stored_clique g' (CUR_MAX_LOC g')) (fun '(g'', ans) => if length ans <? lb then Ok (mkP (Some g'') n m k (n <=? k), Raise EBounds)
        else Ok (mkP (Some g'') n m k (n <=? k), Ret ans))) (fun r => exists c, snd r = (if length c <? lb then Raise EBounds else Ret c)
      /\ length c = if lb <? hsize (srt_fun e) g lb ub then hsize (srt_fun e) g lb ub else 1)).
    { intros k. rewrite E1. cbn [bind]. destruct (length c <? lb) eqn:EL; apply wp_ok; exists c; rewrite EL; auto. }
    destruct (clock e); cbn [bind]; apply FIN.
  Qed.
End Answer.

(** ** More vertices without neighbours *)
Section More.
  Variables (a a' : pairs) (n n' : nat) (adj adj' : nat -> nat -> Prop).
  Hypothesis PD : padded n n' adj adj'.
  Hypothesis GR : gra a n adj.
  Hypothesis GR' : gra a' n' adj'.
  Let HC := gra_ctx a n adj GR.

  Lemma rows_same v : v < n + 1 -> row a v = row a' v.
  Proof.
    intros Hv. destruct PD as [L EA].
    apply (sorted_equal lt); [intros; lia|apply row_sorted, (gr_sorted _ _ _ GR)|apply row_sorted, (gr_sorted _ _ _ GR')|].
    intros u. symmetry. rewrite !row_in, (gr_in _ _ _ GR), (gr_in _ _ _ GR'). split.
    - intros (A1 & A2 & A3). split; [lia|]. split; [lia|]. destruct A3 as [A3|A3]; [auto|right; apply EA; auto].
    - intros (A1 & A2 & [A3|A3]); [subst; split; [lia|]; split; [lia|auto]|]. apply EA in A3. pose proof (gr_simple _ _ _ GR v u A3) as (A4 & _ & _).
      pose proof (gr_simple _ _ _ GR u v A4) as (_ & _ & A5). split; [lia|]. split; [lia|auto].
  Qed.

  Lemma nbr_in v x : v < n + 1 -> x < rlen a v -> nbr a v x < n + 1.
  Proof. intros _. apply (nbr_lt a (n + 1) HC). Qed.

  Lemma candp_same v x : v < n + 1 -> x < rlen a v -> candp a v x = candp a' v x.
  Proof.
    intros Hv Hx. unfold candp, before. rewrite <- (rows_same v Hv). rewrite <- (rows_same (nbr a v x)) by (apply nbr_in; auto). reflexivity.
  Qed.

  Lemma members_same v : v < n + 1 -> members (rlen a v) (candp a v) = members (rlen a' v) (candp a' v).
  Proof.
    intros Hv. rewrite <- (rows_same v Hv). unfold members. apply filter_ext_in. intros x I. apply in_seq in I. apply candp_same; auto. lia.
  Qed.

  Lemma gsize_same v l : v < n + 1 -> forall c X X', (forall d, In d l -> d_pos d < rlen a v) -> (forall x, x < rlen a v -> X x = X' x) ->
    gsize a v l c X = gsize a' v l c X'.
  Proof.
    intros Hv. induction l as [|d r IH]; intros c X X' HD HX; auto. cbn [gsize].
    rewrite <- (HX (d_pos d)) by (apply HD; left; auto).
    destruct (X (d_pos d)); apply IH; auto; try (intros; apply HD; right; auto).
    intros x Hx. unfold keep. rewrite HX by auto. f_equal. unfold padj. rewrite <- (rows_same v Hv).
    rewrite <- (rows_same (nbr a v (d_pos d))) by (apply nbr_in; auto; apply HD; left; auto). reflexivity.
  Qed.

  Lemma hstep_same srt v c : (forall l, Permutation (srt l) l) -> v < n + 1 -> hstep a v srt c = hstep a' v srt c.
  Proof.
    intros HP Hv. unfold hstep, card. rewrite <- (members_same v Hv). destruct (_ <=? c); auto. f_equal.
    replace (map (ent_of a' v) (members (rlen a v) (candp a v))) with (map (ent_of a v) (members (rlen a v) (candp a v))).
    - apply gsize_same; auto; [|intros; apply candp_same; auto]. intros d I. apply (Permutation_in _ (HP _)) in I. apply in_map_iff in I.
      destruct I as (x & <- & I). apply filter_In in I. destruct I as [I _]. apply in_seq in I. cbn. lia.
    - apply map_ext_in. intros x I. apply filter_In in I. destruct I as [I _]. apply in_seq in I. unfold ent_of. rewrite <- (rows_same v Hv).
      rewrite <- (rows_same (nbr a v x)) by (apply nbr_in; auto; lia). reflexivity.
  Qed.

  Lemma hstep_lone srt v c : n < v <= n' -> hstep a' v srt c = c.
  Proof.
    intros Hv. destruct PD as [L EA]. pose proof (row_later a' n' adj' GR' v ltac:(lia)) as (l & _ & I & LE).
    assert (E : l = []).
    { destruct l as [|u l]; auto. destruct (proj1 (I u) (or_introl eq_refl)) as [A _]. apply EA in A. apply (gr_simple _ _ _ GR) in A. lia. }
    subst l. cbn [length] in LE. change (bound a' v) with (S (card (rlen a' v) (candp a' v))) in LE.
    unfold hstep. destruct (Nat.leb_spec (card (rlen a' v) (candp a' v)) c); [auto|lia].
  Qed.

  Lemma hturns_same srt lim c : (forall l, Permutation (srt l) l) -> hturns a srt lim (seq 0 (n + 1)) c = hturns a' srt lim (seq 0 (n' + 1)) c.
  Proof.
    intros HP. destruct PD as [L _]. replace (n' + 1) with ((n + 1) + (n' - n)) by lia. rewrite (seq_app (n + 1) (n' - n) 0). unfold hturns at 2. rewrite fold_left_app.
    fold (hturns a' srt lim (seq 0 (n + 1)) c). cbn [Nat.add].
    assert (T : forall l c, (forall v, In v l -> n < v <= n') -> fold_left (fun c v => if lim <=? c then c else hstep a' v srt c) l c = c).
    { induction l as [|v l IH]; intros c1 H; auto. cbn [fold_left]. rewrite hstep_lone by (apply H; left; auto).
      destruct (lim <=? c1); apply IH; intros; apply H; right; auto. }
    rewrite T by (intros v I; apply in_seq in I; lia).
    assert (T2 : forall l c, (forall v, In v l -> v < n + 1) -> hturns a srt lim l c = hturns a' srt lim l c).
    { induction l as [|v l IH]; intros c1 H; auto. cbn. rewrite (hstep_same srt v c1 HP) by (apply H; left; auto).
      destruct (lim <=? c1); apply IH; intros; apply H; right; auto. }
    apply T2. intros v I. apply in_seq in I. lia.
  Qed.

  Lemma bound_same v : v < n + 1 -> bound a v = bound a' v.
  Proof.
    intros Hv. change (S (length (members (rlen a v) (candp a v))) = S (length (members (rlen a' v) (candp a' v)))). rewrite <- (members_same v Hv). reflexivity.
  Qed.
End More.

Lemma lone_heuristic p p' n n' adj adj' : padded n n' adj adj' -> made p n adj -> made p' n' adj' -> storage_live p -> storage_live p' ->
  forall e e' lb ub cont cont', has_edge adj -> permutes e -> srt_fun e = srt_fun e' ->
  ends_with (get_max_clique e p lb ub true false cont) (fun r => ends_with (get_max_clique e' p' lb ub true false cont') (fun r' =>
    match snd r, snd r' with
    | Ret c, Ret c' => length c = length c'
    | Raise x, Raise x' => x = x'
    | _, _ => False
    end)).
Proof.
  intros PD M M' LV LV' e e' lb ub cont cont' HE HP ES.
  assert (HE' : has_edge adj') by (destruct HE as (u & v & A); exists u, v; apply PD; auto).
  destruct (made_hinv p n adj M HE LV) as (a & cap & m & g & GR & B & -> & HL & G & Z & _).
  destruct (made_hinv p' n' adj' M' HE' LV') as (a' & cap' & m' & g' & GR' & B' & -> & HL' & G' & Z' & _).
  assert (HP' : permutes e') by (unfold permutes; rewrite <- ES; exact HP).
  pose proof (built_richest a n adj GR cap g B ltac:(destruct Z; lia)) as R. pose proof (built_richest a' n' adj' GR' cap' g' B' ltac:(destruct Z'; lia)) as R'.
  pose proof (padded_richest n n' adj adj' PD (gr_simple _ _ _ GR) _ _ R R') as LOC.
  pose proof (go_loc _ _ _ _ _ (proj1 G)) as GL.
  destruct (b_loc _ _ _ _ B ltac:(lia)) as [_ LM]. destruct (b_loc _ _ _ _ B' ltac:(lia)) as [_ LM'].
  assert (LIM : CLIQUE_LIMIT g = CLIQUE_LIMIT g') by (rewrite <- LM, <- LM', <- LOC; apply (bound_same a a' n n' adj adj'); auto).
  assert (EH : hsize a n (srt_fun e) g lb ub = hsize a' n' (srt_fun e') g' lb ub).
  { unfold hsize. rewrite <- ES, <- LIM, <- LOC, <- (hstep_same a a' n n' adj adj' PD GR GR' (srt_fun e) _ lb HP GL).
    apply (hturns_same a a' n n' adj adj'); auto. }
  eapply wp_mono; [apply (heuristic_size a n adj GR cap e g m lb ub cont B HE HL HP)|]. intros r (c & Er & Ec).
  eapply wp_mono; [apply (heuristic_size a' n' adj' GR' cap' e' g' m' lb ub cont' B' HE' HL' HP')|]. intros r' (c' & Er' & Ec').
  rewrite <- EH in Ec'. assert (LC : length c = length c') by congruence. rewrite Er, Er', <- LC. destruct (length c <? lb); auto.
Qed.
