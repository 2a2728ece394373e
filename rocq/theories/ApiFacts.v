(** ApiFacts: get_max_clique and reset_search on the objects Python sees. *)
From Verif Require Import Base MBits MUtils MGraph MHeur MStack MRec MEnum MApi Spec SpecBits BaseFacts BitsFacts SetFacts SortFacts RowFacts ConstructFacts CardFacts LoadFacts SearchBase StackFacts RecFacts HeurFacts SearchFacts CliqueFacts.
From Coq Require Import Sorting.Sorted Sorting.Permutation.
Local Open Scope nat_scope.
Local Arguments Nat.sub : simpl never.
Local Arguments Nat.mul : simpl never.

Lemma never_late_late e clk : never_late e -> clock e = Some clk -> late clk -> False.
Proof. unfold never_late. intros H E (k & Hk). rewrite E in H. congruence. Qed.

Lemma steady_mono e clk : steady e -> clock e = Some clk -> monotone clk.
Proof. unfold steady. intros H E. rewrite E in H. exact H. Qed.

Section Gra.
  Variables (a : pairs) (n : nat) (adj : nat -> nat -> Prop).
  Hypothesis GR : gra a n adj.
  Notation nv := (n + 1).
  Let HC := gra_ctx a n adj GR.
  Let HS := gc_sorted _ _ HC.
  Let Hself := gc_self _ _ HC.

  (** ** One search of the graph *)
  Lemma find_max_cliques_gen half e g mcs start heur dfs : (half = true -> untimed e) -> permutes e -> goodR half a nv g mcs ->
    wp (find_max_cliques e g start heur dfs) (fun r => let g' := fst r in exists mcs', goodR half a nv g' mcs' /\ called a nv g g'
       /\ (0 < CUR_MAX_SIZE g \/ steady e -> nz a g -> nz a g')
       /\ (dfs = false -> snd r = start)
       /\ (dfs = true -> never_late e -> nv <= snd r /\ (svalid a nv mcs -> CLIQUE_LIMIT g <= CUR_MAX_SIZE g'
              \/ forall v, v < nv -> untimed e \/ start <= v -> no_larger a v (CUR_MAX_SIZE g')))
       /\ (never_late e -> wide a nv g -> svalid a nv mcs -> svalid a nv mcs')).
  Proof.
    intros HH HP G. unfold find_max_cliques. apply wp_bind.
    assert (H1 : wp (if heur then heur_process_graph (srt_fun e) g else Ok g)
              (fun g1 => goodR half a nv g1 mcs /\ called a nv g g1 /\ (nz a g -> nz a g1))).
    { destruct heur; [eapply wp_mono; [exact (heur_process_graph_spec a nv HC (gra_len0 a n adj GR) (srt_fun e) g mcs HP G)|intros ? (? & ? & ? & _); auto]|].
      apply wp_ok. split; auto. split; [apply called_refl|auto]. }
    eapply wp_mono; [exact H1|]. clear H1. intros g1 (G1 & C1 & Z1).
    pose proof (core_lim _ _ (ca_core _ _ _ _ C1)) as LIM. pose proof (called_le _ _ _ _ C1) as CL.
    assert (TR : forall g2, called a nv g1 g2 -> called a nv g g2).
    { intros g2 C2. apply (called_trans a nv g g1 g2); auto. intros; apply (proj1 G1). }
    assert (NODFS : wp (Ok (g1, start)) (fun r => let g' := fst r in exists mcs', goodR half a nv g' mcs' /\ called a nv g g'
       /\ (0 < CUR_MAX_SIZE g \/ steady e -> nz a g -> nz a g')
       /\ (false = false -> snd r = start)
       /\ (false = true -> never_late e -> nv <= snd r /\ (svalid a nv mcs -> CLIQUE_LIMIT g <= CUR_MAX_SIZE g'
              \/ forall v, v < nv -> untimed e \/ start <= v -> no_larger a v (CUR_MAX_SIZE g')))
       /\ (never_late e -> wide a nv g -> svalid a nv mcs -> svalid a nv mcs'))).
    { apply wp_ok. exists mcs. cbn [fst snd]. split; auto. split; auto. split; auto. split; auto. split; auto. discriminate. }
    destruct (clock e) as [clk|] eqn:EC; (destruct dfs; [|exact NODFS]).
    - assert (EH : half = false) by (destruct half; [specialize (HH eq_refl); unfold untimed in HH; congruence|auto]).
      eapply wp_mono; [apply (rec_process_graph_spec a nv HC (gra_len0 a n adj GR) clk start g1 mcs EH G1)|].
      intros [g2 i] (I1 & I2 & mcs2 & G2 & C2 & Z2 & V2 & W2). cbn [fst snd] in *. exists mcs2.
      split; auto. split; auto. split; [|split; [discriminate|split]].
      + intros D Z. apply Z2; auto. destruct D as [D|D]; [left; lia|right; eapply steady_mono; eauto].
      + intros _ NL. assert (NLT : ~ late clk) by (intros L; eapply never_late_late; eauto).
        split; [destruct (Nat.lt_ge_cases i nv); auto; exfalso; auto|].
        intros V. destruct (V2 (svalid_valid a nv g1 mcs V)) as [?|[L|[_ L]]]; [tauto|left; lia|right].
        intros v Hv [U|S]; [unfold untimed in U; congruence|]. apply L. lia.
      + intros NL WD V. destruct W2 as [L|]; auto; [intros v Hv; rewrite LIM; auto|]. exfalso; eapply never_late_late; eauto.
    - eapply wp_mono; [apply (sd_process_graph_spec a nv HC (gra_len0 a n adj GR) (lr_order e) g1 mcs G1)|].
      intros [g2 i] (I1 & mcs2 & G2 & C2 & Z2 & V2 & W2). cbn [fst snd] in *. exists mcs2.
      split; auto. split; auto. split; [auto|split; [discriminate|split]].
      + intros _ _. split; [lia|]. intros V. destruct (V2 (svalid_valid a nv g1 mcs V)) as [L|L]; [left; lia|right].
        intros v Hv _. apply L. auto.
      + intros _ WD V. apply W2; auto. intros v Hv. rewrite LIM. auto.
  Qed.

  Lemma find_max_cliques_spec e g mcs start heur dfs : permutes e -> good a nv g mcs ->
    wp (find_max_cliques e g start heur dfs) (fun r => let g' := fst r in exists mcs', good a nv g' mcs' /\ called a nv g g'
       /\ (0 < CUR_MAX_SIZE g \/ steady e -> nz a g -> nz a g')
       /\ (dfs = false -> snd r = start)
       /\ (dfs = true -> never_late e -> nv <= snd r /\ (svalid a nv mcs -> CLIQUE_LIMIT g <= CUR_MAX_SIZE g'
              \/ forall v, v < nv -> untimed e \/ start <= v -> no_larger a v (CUR_MAX_SIZE g')))
       /\ (never_late e -> wide a nv g -> svalid a nv mcs -> svalid a nv mcs')).
  Proof. intros HP G. apply (find_max_cliques_gen false); auto. discriminate. Qed.

  (** ** get_max_clique *)
  Definition prepared (g : graph) (lb ub : nat) : graph :=
    set_limit (set_best g (Nat.max (CUR_MAX_SIZE g) lb) (CUR_MAX_LOC g)) (Nat.min ub (CLIQUE_LIMIT g)).

  Lemma prepared_good {half} g mcs lb ub : goodR half a nv g mcs -> goodR half a nv (prepared g lb ub) mcs.
  Proof. intros [[X1 X2 X3 X4 X5] Z]. destruct X1. split; [split; auto; split; auto|auto]. Qed.

  Lemma prepared_nz g lb ub : nz a g -> nz a (prepared g lb ub).
  Proof. intros [Z1 Z2]. split; auto. cbn [prepared set_limit set_best CUR_MAX_SIZE CUR_MAX_LOC]. intros E. apply Z2. lia. Qed.

  Lemma get_unfold e g m cur0 fin0 lb ub heur dfs cont : 1 <= n ->
    get_max_clique e (mkP (Some g) n m cur0 fin0) lb ub heur dfs cont =
    bind (find_max_cliques e (prepared g lb ub) (if cont then cur0 else 0) (if cont && negb (cur0 =? 0) then false else heur) dfs)
      (fun '(g', cur) => '(g', ans) <- stored_clique g' (CUR_MAX_LOC g');;
         if length ans <? lb then Ok (mkP (Some g') n m cur (n <=? cur), Raise EBounds)
         else Ok (mkP (Some g') n m cur (n <=? cur), Ret ans)).
  Proof.
    intros Hn. unfold get_max_clique, loaded. cbn [p_cur p_G p_nvert p_nedges].
    destruct (Nat.eqb_spec n 0) as [|_]; [lia|].
    assert (EG : set_limit (set_best g (if CUR_MAX_SIZE g <? lb then lb else CUR_MAX_SIZE g) (CUR_MAX_LOC g))
                   (if ub <? CLIQUE_LIMIT (set_best g (if CUR_MAX_SIZE g <? lb then lb else CUR_MAX_SIZE g) (CUR_MAX_LOC g)) then ub
                    else CLIQUE_LIMIT (set_best g (if CUR_MAX_SIZE g <? lb then lb else CUR_MAX_SIZE g) (CUR_MAX_LOC g))) = prepared g lb ub).
    { unfold prepared. cbn [set_best CLIQUE_LIMIT]. f_equal; [f_equal|].
      - destruct (Nat.ltb_spec (CUR_MAX_SIZE g) lb); lia.
      - destruct (Nat.ltb_spec ub (CLIQUE_LIMIT g)); lia. }
    rewrite EG. reflexivity.
  Qed.

  Lemma get_core_gen half e g mcs m cur0 fin0 lb ub heur dfs cont : (half = true -> untimed e) -> lawful e lb -> 1 <= n -> goodR half a nv g mcs -> nz a g ->
    wp (get_max_clique e (mkP (Some g) n m cur0 fin0) lb ub heur dfs cont)
       (fun r => exists g' mcs' cur' c, fst r = mkP (Some g') n m cur' (n <=? cur') /\ goodR half a nv g' mcs' /\ nz a g'
          /\ called a nv (prepared g lb ub) g'
          /\ clique n adj c /\ stores a g' (CUR_MAX_LOC g') (length c)
          /\ snd r = (if length c <? lb then Raise EBounds else Ret c)
          /\ (dfs = false -> cur' = if cont then cur0 else 0)
          /\ (dfs = true -> never_late e -> nv <= cur' /\ (svalid a nv mcs -> Nat.min ub (CLIQUE_LIMIT g) <= CUR_MAX_SIZE g'
              \/ forall v, v < nv -> untimed e \/ (cont = false \/ cur0 <= v) -> no_larger a v (CUR_MAX_SIZE g')))
          /\ (never_late e -> wide a nv (prepared g lb ub) -> svalid a nv mcs -> svalid a nv mcs')).
  Proof.
    intros HH [HP HL] Hn G Z. rewrite get_unfold by auto. apply wp_bind.
    eapply wp_mono; [apply (find_max_cliques_gen half e (prepared g lb ub) mcs _ _ dfs HH HP (prepared_good g mcs lb ub G))|].
    intros [g' i] (mcs' & G' & C' & Z' & F1 & F2 & F3). cbn [fst snd] in *.
    assert (ZZ : nz a g').
    { apply Z'; [|apply prepared_nz; auto]. destruct HL as [HL|HL]; auto. left. cbn [prepared set_limit set_best CUR_MAX_SIZE]. lia. }
    pose proof (proj1 G') as B'. pose proof (go_loc _ _ _ _ _ B') as L'.
    destruct (go_bits _ _ _ _ _ B' _ L') as (s & S).
    destruct (stored_clique_spec a n adj GR g' mcs' (CUR_MAX_LOC g') s (go_shape _ _ _ _ _ B')) as (c & E1 & E2 & E3); auto.
    { destruct ZZ. lia. }
    rewrite E1. cbn [bind]. subst s.
    assert (FIN : wp (if length c <? lb then Ok (mkP (Some g') n m i (n <=? i), Raise EBounds) else Ok (mkP (Some g') n m i (n <=? i), Ret c))
        (fun r => fst r = mkP (Some g') n m i (n <=? i) /\ snd r = if length c <? lb then Raise EBounds else Ret c)).
    { destruct (length c <? lb); apply wp_ok; auto. }
    eapply wp_mono; [exact FIN|]. intros [p' r] [E4 E5]. cbn [fst snd] in *.
    exists g', mcs', i, c. do 9 (split; auto). intros D NL. destruct (F2 D NL) as [F4 F5]. split; auto.
    intros V. destruct (F5 V) as [F6|F6]; [left; exact F6|right]. intros v Hv K. apply F6; auto.
    destruct K as [K|[->|K]]; auto; [right; lia|]. right. destruct cont; [auto|lia].
  Qed.

  Lemma get_core e g mcs m cur0 fin0 lb ub heur dfs cont : lawful e lb -> 1 <= n -> good a nv g mcs -> nz a g ->
    wp (get_max_clique e (mkP (Some g) n m cur0 fin0) lb ub heur dfs cont)
       (fun r => exists g' mcs' cur' c, fst r = mkP (Some g') n m cur' (n <=? cur') /\ good a nv g' mcs' /\ nz a g'
          /\ called a nv (prepared g lb ub) g'
          /\ clique n adj c /\ stores a g' (CUR_MAX_LOC g') (length c)
          /\ snd r = (if length c <? lb then Raise EBounds else Ret c)
          /\ (dfs = false -> cur' = if cont then cur0 else 0)
          /\ (dfs = true -> never_late e -> nv <= cur' /\ (svalid a nv mcs -> Nat.min ub (CLIQUE_LIMIT g) <= CUR_MAX_SIZE g'
              \/ forall v, v < nv -> untimed e \/ (cont = false \/ cur0 <= v) -> no_larger a v (CUR_MAX_SIZE g')))
          /\ (never_late e -> wide a nv (prepared g lb ub) -> svalid a nv mcs -> svalid a nv mcs')).
  Proof. intros LA Hn G Z. apply (get_core_gen false); auto. discriminate. Qed.

  (** ** The invariant of all histories *)
  Definition hinv (p : pygraph) : Prop :=
    exists g mcs m cur fin, p = mkP (Some g) n m cur fin /\ good a nv g mcs /\ nz a g /\ search_start g = search_cur g.

  Lemma has_edge_n : has_edge adj -> 1 <= n.
  Proof. intros (u & v & A). apply (gr_simple _ _ _ GR) in A. lia. Qed.

  Lemma called_start g g' lb ub : called a nv (prepared g lb ub) g' -> search_start g = search_cur g -> search_start g' = search_cur g'.
  Proof.
    intros C E. pose proof (ca_core _ _ _ _ C) as E1. unfold core in E1. inversion E1. rewrite (ca_cur _ _ _ _ C), H3. exact E.
  Qed.

  Lemma hinv_get p e lb ub heur dfs cont : 1 <= n -> hinv p -> lawful e lb ->
    wp (get_max_clique e p lb ub heur dfs cont) (fun r => hinv (fst r) /\
      match snd r with Ret c => clique n adj c /\ lb <= length c | Raise x => x = EBounds end).
  Proof.
    intros Hn (g & mcs & m & cur & fin & -> & G & Z & SS) LA.
    eapply wp_mono; [apply (get_core e g mcs m cur fin lb ub heur dfs cont LA Hn G Z)|].
    intros [p' r] (g' & mcs' & cur' & c & E & G' & Z' & C' & CC & S & ER & _). cbn [fst snd] in *. subst p' r. split.
    - exists g', mcs', m, cur', (n <=? cur'). do 3 (split; auto). eapply called_start; eauto.
    - destruct (Nat.ltb_spec (length c) lb); auto.
  Qed.

  Lemma hinv_reset p : hinv p -> wp (reset_search p) hinv.
  Proof.
    intros (g & mcs & m & cur & fin & -> & G & Z & SS). apply wp_ok. exists (set_best g 1 (CUR_MAX_LOC g)), mcs, m, 0, false.
    split; auto. split; [|split; auto].
    - destruct G as [[X1 X2 X3 X4 X5] ZZ]. destruct X1. split; [split; auto; split; auto|auto].
    - destruct Z as [Z1 Z2]. split; auto. discriminate.
  Qed.
End Gra.

Lemma made_hinv p n adj : made p n adj -> has_edge adj -> storage_live p ->
  exists a cap m g, gra a n adj /\ built a (n + 1) cap g /\ p = mkP (Some g) n m 0 false /\ bits_live g = true
    /\ good a (n + 1) g (bound a) /\ nz a g /\ wide a (n + 1) g /\ stores a g (CUR_MAX_LOC g) 1
    /\ hinv a n p /\ 2 <= CLIQUE_LIMIT g.
Proof.
  intros M HE (g0 & EG & HL). destruct (made_fresh p n adj M) as (a & cap & m & g & -> & GR & B). cbn [p_G] in EG. injection EG as ->.
  destruct (built_good a n adj GR cap g0 HE B HL) as (H1 & H2 & H3 & H4 & H5).
  exists a, cap, m, g0. do 8 (split; auto). split; auto.
  exists g0, (bound a), m, 0, false. split; auto. split; auto. split; auto. rewrite (b_start _ _ _ _ B), (b_cur _ _ _ _ B). auto.
Qed.
