(** EnumApi: iterating all_cliques to the end, on the objects Python sees. *)
From Verif Require Import Base MBits MUtils MGraph MHeur MStack MRec MEnum MApi Spec SpecCont SpecOrder SpecBits BaseFacts BitsFacts SetFacts SortFacts RowFacts ConstructFacts CardFacts LoadFacts SearchBase StackFacts SearchFacts CliqueFacts ApiFacts EnumFacts.
From Coq Require Import Sorting.Sorted Sorting.Permutation.
Local Open Scope nat_scope.
Local Arguments Nat.sub : simpl never.
Local Arguments Nat.mul : simpl never.

(** ** The harness around next_clique *)
Lemma drain_mono lr f : forall f' p en r, drain f lr p en = Ok r -> f <= f' -> drain f' lr p en = Ok r.
Proof.
  induction f as [|f IH]; intros f' p en r E L; [discriminate|]. destruct f' as [|f']; [lia|]. cbn [drain] in *.
  destruct (next_clique lr p en) as [[[p1 en1] [c|x]]| |]; cbn [bind] in *; try discriminate; auto.
  destruct (drain f lr p1 en1) as [[[p2 en2] l]| |] eqn:E1; cbn [bind] in E; try discriminate.
  rewrite (IH f' _ _ _ E1) by lia. exact E.
Qed.

Lemma drain_len lr f : forall p en p' en' l, drain f lr p en = Ok (p', en', l) -> length l < f.
Proof.
  induction f as [|f IH]; intros p en p' en' l E; [discriminate|]. cbn [drain] in *.
  destruct (next_clique lr p en) as [[[p1 en1] [c|x]]| |]; cbn [bind] in *; try discriminate.
  - destruct (drain f lr p1 en1) as [[[p2 en2] l2]| |] eqn:E1; cbn [bind] in E; try discriminate.
    injection E as <- <- <-. apply IH in E1. simpl. lia.
  - injection E as <- <- <-. simpl. lia.
Qed.

Lemma drain_unique lr f p en p' en' l r : drain f lr p en = Ok r ->
  (forall fuel, length l < fuel -> drain fuel lr p en = Ok (p', en', l)) -> r = (p', en', l).
Proof.
  intros E H. pose proof (drain_mono lr f (f + S (length l)) p en r E ltac:(lia)) as E1. rewrite H in E1 by lia. congruence.
Qed.

Lemma drain_nexts lr f : forall p en p' en' l i, drain f lr p en = Ok (p', en', l) ->
  exists q e, nexts i lr p en = Ok (q, e, firstn i l).
Proof.
  induction f as [|f IH]; intros p en p' en' l i E; [discriminate|]. cbn [drain] in *.
  destruct i as [|i]; [exists p, en; reflexivity|]. cbn [nexts].
  destruct (next_clique lr p en) as [[[p1 en1] [c|x]]| |]; cbn [bind] in *; try discriminate.
  - destruct (drain f lr p1 en1) as [[[p2 en2] l2]| |] eqn:E1; cbn [bind] in E; try discriminate.
    injection E as <- <- <-. destruct (IH _ _ _ _ _ i E1) as (q & e & ->).
    exists q, e. reflexivity.
  - injection E as <- <- <-. exists p1, en1. reflexivity.
Qed.

Lemma lex_asym l l' : lex l l' -> lex l' l -> False.
Proof. induction 1; inversion 1; subst; auto; lia. Qed.

Lemma sorted_prefix {A} (R : A -> A -> Prop) l : forall L, (forall x y, In x L -> In y L -> R x y -> R y x -> False) ->
  StronglySorted R L -> StronglySorted R l -> (forall d, In d l -> In d L) ->
  (forall d, In d L -> ~ In d l -> forall x, In x l -> R x d) -> exists rest, L = l ++ rest.
Proof.
  induction l as [|x l IH]; intros L AS SL Sl IN AF; [exists L; auto|]. destruct L as [|y L]; [destruct (IN x (or_introl eq_refl))|].
  inversion SL as [|? ? SL1 FL]; subst. inversion Sl as [|? ? Sl1 Fl]; subst. rewrite Forall_forall in *.
  assert (x = y) as ->.
  { destruct (IN x (or_introl eq_refl)) as [|I]; auto. exfalso. pose proof (FL x I) as RYX.
    assert (NY : ~ In y (x :: l)).
    { intros [->|J]; [apply (AS y y (or_introl eq_refl) (or_introl eq_refl)); auto|].
      apply (AS x y (or_intror I) (or_introl eq_refl)); auto. }
    apply (AS y x (or_introl eq_refl) (or_intror I)); auto. apply (AF y (or_introl eq_refl) NY x (or_introl eq_refl)). }
  assert (NY : ~ In y l) by (intros I; apply (AS y y (or_introl eq_refl) (or_introl eq_refl)); auto).
  assert (NY' : ~ In y L) by (intros I; apply (AS y y (or_introl eq_refl) (or_introl eq_refl)); auto).
  destruct (IH L) as (rest & ->); auto.
  - intros u v Iu Iv. apply AS; right; auto.
  - intros d I. destruct (IN d (or_intror I)) as [->|]; [congruence|auto].
  - intros d I NI u Iu. apply AF; [right; auto| |right; auto]. intros [->|]; auto.
  - exists rest. auto.
Qed.

Lemma lex_filter f x K K' : forall r s, (forall y z, y < z < s + r -> f y < f z) -> s <= x < s + r -> K x = true -> K' x = false ->
  (forall y, y < x -> K y = K' y) -> lex (map f (filter K (seq s r))) (map f (filter K' (seq s r))).
Proof.
  induction r as [|r IH]; intros s MO Hx E1 E2 EB; [lia|]. cbn [seq filter] in *. destruct (Nat.eq_dec s x) as [->|NE].
  - rewrite E1, E2 in *. destruct (filter K' (seq (S x) r)) as [|y l] eqn:EF; cbn [map]; [apply lex_end|apply lex_here, MO].
    assert (I : In y (filter K' (seq (S x) r))) by (rewrite EF; left; auto). apply filter_In in I. destruct I as [I _]. apply in_seq in I. lia.
  - rewrite (EB s) in * by lia. destruct (K' s).
    + cbn [map]. apply lex_later. apply IH; auto; [intros; apply MO; lia|lia].
    + apply IH; auto; [intros; apply MO; lia|lia].
Qed.

Lemma lexlt_decode a nv v K K' : gctx a nv -> lexlt a v K K' -> lex (decode a v K) (decode a v K').
Proof.
  intros HC (x & Hx & E1 & E2 & E3). apply (lex_filter (fun p => nbr a v p) x K K' (rlen a v) 0); auto; [|lia].
  intros y z Hy. apply (nbr_mono a nv HC). lia.
Qed.

Section Gra.
  Variables (a : pairs) (n : nat) (adj : nat -> nat -> Prop).
  Hypothesis GR : gra a n adj.
  Notation nv := (n + 1).
  Let HC := gra_ctx a n adj GR.
  Let HS := gc_sorted _ _ HC.
  Let Hself := gc_self _ _ HC.

  Lemma stored_decode g mcs v K : shape a nv g mcs -> v < nv -> rep (edge_bits g) (eb a v) (rlen a v) K ->
    stored_clique g v = Ok (g, decode a v K).
  Proof.
    intros SH Hv R1.
    unfold stored_clique. rewrite (sh_vs _ _ _ _ SH), rd_vert by lia. cbn [bind]. unfold live. rewrite (sh_live _ _ _ _ SH). cbn [bind mkvert vbits velo].
    rewrite (sh_el _ _ _ _ SH).
    rewrite (bits_subset_spec (edge_bits g) (eb a v) (rlen a v) K) by
      (auto; try apply (sh_mem _ _ _ _ SH); try apply (len_pos a nv HS Hself); try apply (row_end a nv); lia).
    cbn [bind]. f_equal. f_equal.
    - destruct g. reflexivity.
    - apply map_ext_in. intros p I. apply filter_In in I. destruct I as [I _]. apply in_seq in I. apply (ent_row a nv HC). lia.
  Qed.

  Lemma target_clique v k K : 1 <= v < nv -> target a v k K -> clique n adj (decode a v K) /\ length (decode a v K) = k.
  Proof. intros Hv (R & P & C). split; [apply (rooted_clique a n adj GR); auto|]. unfold decode. rewrite map_length. exact C. Qed.

  (** A graph on which an iteration can start. *)
  Record ready (g : graph) (mcs : nat -> nat) : Prop := {
    re_shape : shape a nv g mcs;
    re_eb : eb a nv <= search_cur g;
    re_room : forall v, v < nv -> 2 <= mcs v ->
      search_cur g + (bound a v + 1) * words (rlen a v) <= length (edge_bits g) /\ rlen a v <= max_degree g;
    re_bits : forall v, v < nv -> exists s, stores a g v s;
    re_zero : zero_from (edge_bits g) (search_cur g)
  }.

  Lemma good_ready {half} g mcs : goodR half a nv g mcs -> ready g mcs.
  Proof.
    intros [B Z]. split; [apply B|apply B| |apply B|auto]. intros v Hv _. split; [apply (good_room_s a nv g mcs _ v B Hv)|].
    destruct (go_room _ _ _ _ _ B) as (M & H & _). apply (H v Hv).
  Qed.

  (** The cliques an enumeration leaves out: those whose first vertex in the search order is vertex 1. *)
  Definition missed (d : list nat) : Prop := In 1 d /\ forall u, In u d -> u = 1 \/ before a 1 u = true.

  Section Run.
    Variables (g0 : graph) (mcs : nat -> nat).
    Hypothesis RD : ready g0 mcs.
    Variables (m cu : nat) (fin : bool) (lr : bool).
    Notation obj g := (mkP (Some g) n m cu fin).
    Notation c0 := (search_cur g0).

    Lemma ready_kept : kept a nv g0 g0.
    Proof. split; auto; [apply (sh_mem _ _ _ _ (re_shape _ _ RD))|apply (re_bits _ _ RD)]. Qed.

    Definition drained (g : graph) (en : enum) (l : list (list nat)) : Prop :=
      exists g' en', (forall fuel, length l < fuel -> drain fuel lr (obj g) en = Ok (obj g', en', l))
        /\ kept a nv g0 g' /\ search_cur g' = c0 /\ zero_from (edge_bits g') c0.

    Lemma drain_big k : 2 <= k -> forall N g en fs, est a nv lr k g0 g en N fs ->
      exists l, drained g en l /\ NoDup l /\ (forall d, In d l -> pend a nv k (e_cur en) fs d)
        /\ (svalid a nv mcs -> forall d, pend a nv k (e_cur en) fs d -> In d l) /\ StronglySorted (prior a nv k) l.
    Proof.
      intros Hk. induction N as [N IH] using (well_founded_induction lt_wf). intros g en fs ES.
      pose proof (en_process_graph_spec a nv lr k g0 mcs HC (re_shape _ _ RD) (re_eb _ _ RD) (re_room _ _ RD) Hk g en N fs ES) as W.
      destruct (en_process_graph lr g en) as [[[g1 en1] v]| |] eqn:EP; try contradiction. cbn [ends_with] in W.
      destruct W as [(Hv & N1 & fs1 & K & LT & ES1 & T & RP & P0 & P1 & P2)|(Hv & KE & SC & ZF & E1 & E2 & E3 & P2)].
      - destruct (IH N1 LT g1 en1 fs1 ES1) as (l & (g' & en' & DR & DR') & ND & S & C & SO).
        assert (EN : next_clique lr (obj g) en = Ok (obj g1, en1, Ret (decode a v K))).
        { unfold next_clique. cbn [p_G p_nvert]. rewrite EP. cbn [bind]. destruct (Nat.ltb_spec n v); [lia|].
          rewrite (stored_decode g1 mcs v K); [reflexivity|eapply kept_shape; [apply (re_shape _ _ RD)|exact (proj1 ES1)]|lia|exact RP]. }
        exists (decode a v K :: l). split; [|split; [|split; [|split]]].
        + exists g', en'. split; auto. intros fuel L. destruct fuel as [|fuel]; [lia|]. cbn [drain]. rewrite EN. cbn [bind].
          rewrite DR by (simpl in L; lia). reflexivity.
        + constructor; auto. intros I. apply S in I. apply P1 in I. tauto.
        + intros d [<-|I]; auto. apply P1, S; auto.
        + intros V d P. destruct (P2 V d P) as [->|P']; [left; auto|right; auto].
        + constructor; auto. apply Forall_forall. intros d I. apply P1, S, I.
      - exists []. split; [|split; [constructor|split; [intros d []|split; [|constructor]]]].
        + exists g1, en1. split; auto. intros fuel L. destruct fuel as [|fuel]; [lia|]. cbn [drain]. unfold next_clique. cbn [p_G p_nvert].
          rewrite EP. cbn [bind]. destruct (Nat.ltb_spec n v); [|lia]. reflexivity.
        + intros V d P. destruct (P2 V d P).
    Qed.

    (** all_cliques(1) *)
    Lemma drain_one : forall r v g en, kept a nv g0 g -> search_cur g = c0 -> zero_from (edge_bits g) c0 -> e_cur en = v -> e_size en = 1 ->
      r = nv - v -> 1 <= v -> drained g en (map (fun x => [x]) (seq v r)).
    Proof.
      pose proof (re_eb _ _ RD) as HE.
      induction r as [|r IH]; intros v g en KE SC ZF EV ES ER Hv.
      - exists g, en. split; auto. intros fuel L. destruct fuel as [|fuel]; [lia|]. cbn [drain seq map]. unfold next_clique. cbn [p_G p_nvert].
        pose proof (kept_shape _ _ _ _ (re_shape _ _ RD) _ KE) as SH.
        assert (EP : en_process_graph lr g en = Ok (g, en, e_cur en)).
        { unfold en_process_graph. rewrite ES, (sh_nv _ _ _ _ SH), EV. cbn [Nat.eqb andb]. destruct (Nat.ltb_spec v nv); [lia|].
          assert (T : en_turn lr (g, en) = Ok (Done (g, en, e_cur en))).
          { unfold en_turn. rewrite (sh_nv _ _ _ _ SH), EV. destruct (Nat.ltb_spec v nv); [lia|auto]. }
          rewrite <- EV. clear - T. generalize (nv + max_degree g + 2). intros f. unfold run2.
          assert (H : forall f, loop2 f (en_turn lr) (g, en) = Ok (Done (g, en, e_cur en))).
          { clear f. induction f as [|f IH]; cbn [loop2]; auto. rewrite IH. reflexivity. }
          rewrite H. reflexivity. }
        rewrite EP. cbn [bind]. destruct (Nat.ltb_spec n (e_cur en)); [reflexivity|lia].
      - assert (Hvn : v < nv) by lia. destruct (sp_spec a nv HS Hself v Hvn) as [S1 S2].
        pose proof (kept_shape _ _ _ _ (re_shape _ _ RD) _ KE) as SH.
        destruct (ke_bits _ _ _ _ KE v Hvn) as (s & K & R1 & R2 & R3 & R4).
        set (en1 := mkE (e_states en) (e_csz en) (e_cur en + 1) (e_req en) (e_size en)).
        set (K1 := fun x => (x =? sp a v) || false).
        assert (W : wp (en_process_graph lr g en) (fun r => exists g1, r = (g1, en1, v) /\ kept a nv g0 g1 /\ search_cur g1 = c0
            /\ zero_from (edge_bits g1) c0 /\ rep (edge_bits g1) (eb a v) (rlen a v) K1)).
        { unfold en_process_graph. rewrite ES, (sh_nv _ _ _ _ SH), EV. cbn [Nat.eqb andb]. destruct (Nat.ltb_spec v nv); [|lia].
          rewrite (sh_vs _ _ _ _ SH), rd_vert by lia. cbn [bind]. unfold live. rewrite (sh_live _ _ _ _ SH). cbn [bind mkvert vbits vspos].
          apply wp_bind. eapply wp_mono; [apply (bits_clear0_spec (edge_bits g) (eb a v) (rlen a v) K); auto; apply (sh_mem _ _ _ _ SH)|].
          intros m1 (M1 & M2 & M3). apply wp_bind.
          eapply wp_mono; [apply (bits_set_spec m1 (eb a v) (rlen a v) _ _ (sp a v) M1 M2); auto|].
          intros m2 (M4 & M5 & M6). apply wp_ok. exists (set_mem g m2). unfold en1. rewrite ES, EV. split; auto.
          pose proof (same_out_trans _ _ _ _ _ M3 M6) as SO.
          split; [|split; [|split]]; auto.
          - apply (kept_store a nv g0 g m2 v K1); auto.
            + split; [unfold K1; rewrite Nat.eqb_refl; auto|]. intros p Hp E. unfold K1 in E. rewrite orb_false_r in E. apply Nat.eqb_eq in E. auto.
            + intros p q Hp Hq E1' E2' N. unfold K1 in *. rewrite orb_false_r in *. apply Nat.eqb_eq in E1', E2'. congruence.
          - intros i Hi. cbn [set_mem edge_bits]. destruct SO as [_ SO]. rewrite SO; [apply ZF; auto|].
            pose proof (block_end a nv v Hvn). lia. }
        destruct (en_process_graph lr g en) as [[[g1 en2] v1]| |] eqn:EP; try contradiction. cbn [ends_with] in W.
        destruct W as (g2 & EQ & KE1 & SC1 & ZF1 & RP). injection EQ as -> -> ->.
        assert (EN : next_clique lr (obj g) en = Ok (obj g2, en1, Ret [v])).
        { unfold next_clique. cbn [p_G p_nvert]. rewrite EP. cbn [bind]. destruct (Nat.ltb_spec n v); [lia|].
          rewrite (stored_decode g2 mcs v K1 (kept_shape _ _ _ _ (re_shape _ _ RD) _ KE1) Hvn RP). cbn [bind].
          assert (DC : decode a v K1 = [v]); [|rewrite DC; reflexivity].
          apply sorted_ext.
          - apply (rooted_clique a n adj GR v K1); [lia| |].
            + split; [unfold K1; rewrite Nat.eqb_refl; auto|]. intros p Hp E. unfold K1 in E. rewrite orb_false_r in E. apply Nat.eqb_eq in E. auto.
            + intros p q Hp Hq E1' E2' N. unfold K1 in *. rewrite orb_false_r in *. apply Nat.eqb_eq in E1', E2'. congruence.
          - repeat constructor.
          - intros x. rewrite decode_in. split.
            + intros (p & Hp & E & <-). unfold K1 in E. rewrite orb_false_r in E. apply Nat.eqb_eq in E. subst p. left. auto.
            + intros [<-|[]]. exists (sp a v). split; auto. split; auto. unfold K1. rewrite Nat.eqb_refl. auto. }
        destruct (IH (v + 1) g2 en1 KE1 SC1 ZF1) as (g' & en' & DR & DR'); try (unfold en1; cbn [e_cur e_size]; lia).
        exists g', en'. split; auto. intros fuel L. destruct fuel as [|fuel]; [lia|]. cbn [drain]. rewrite EN. cbn [bind].
        cbn [seq map length] in *. replace (S v) with (v + 1) in * by lia. rewrite DR by lia. reflexivity.
    Qed.

    Lemma drain_ready k : exists l, drained g0 (new_enum k) l /\ NoDup l
      /\ (forall d, In d l -> clique n adj d /\ length d = k)
      /\ (k = 0 -> l = []) /\ (k = 1 -> l = map (fun v => [v]) (seq 1 n))
      /\ (2 <= k -> (forall d, In d l -> ~ missed d)
            /\ (svalid a nv mcs -> forall d, clique n adj d -> length d = k -> ~ missed d -> In d l)).
    Proof.
      destruct k as [|[|k]].
      - exists []. split; [|split; [constructor|split; [intros d []|split; [auto|split; [discriminate|lia]]]]].
        exists g0, (mkE [] 0 nv 0 0). split; [|split; [apply ready_kept|split; [auto|apply (re_zero _ _ RD)]]].
        intros fuel L. destruct fuel as [|fuel]; [lia|]. cbn [drain]. unfold next_clique, en_process_graph, new_enum.
        cbn [p_G p_nvert e_size Nat.eqb e_states e_csz e_req bind]. rewrite (sh_nv _ _ _ _ (re_shape _ _ RD)). destruct (Nat.ltb_spec n nv); [reflexivity|lia].
      - exists (map (fun v => [v]) (seq 1 n)). split.
        + apply drain_one; auto; [apply ready_kept|apply (re_zero _ _ RD)|lia].
        + split; [|split; [|split; [discriminate|split; [auto|lia]]]].
          * apply FinFun.Injective_map_NoDup; [intros x y E; congruence|apply seq_NoDup].
          * intros d I. apply in_map_iff in I. destruct I as (v & <- & I). apply in_seq in I. split; auto.
            split; [repeat constructor|]. split; [intros x [<-|[]]; lia|]. intros x y [<-|[]] [<-|[]] N. congruence.
      - assert (ES : est a nv lr (S (S k)) g0 g0 (new_enum (S (S k))) ((nv - 1) * 2 ^ (max_degree g0 + 2)) []).
        { split; [apply ready_kept|]. split; auto. split; [auto|]. right. do 2 (split; auto). split; auto. split; [apply (re_zero _ _ RD)|].
          split; auto. }
        destruct (drain_big (S (S k)) ltac:(lia) _ _ _ _ ES) as (l & DR & ND & S & C & _). exists l. split; auto. split; auto.
        cbn [new_enum e_cur] in S, C.
        split; [|split; [discriminate|split; [discriminate|intros _; split]]].
        + intros d I. destruct (S d I) as (v & K & Hv & T & -> & [L|[_ []]]). apply target_clique; auto. lia.
        + intros d I (M1 & M2). destruct (S d I) as (v & K & Hv & T & -> & [L|[_ []]]).
          destruct T as (R & _). destruct (decode_before a nv HC v K 1 Hv R M1) as [|B1]; [lia|].
          destruct (M2 v (decode_root a nv HC v K Hv R)) as [|B2]; [lia|]. exact (before_asym a _ _ B1 B2).
        + intros V d D L NM. destruct (clique_rooted a n adj GR d D) as (v & K & Hv & I & R & P & EC & ED); [intros ->; discriminate|].
          apply C; auto. exists v, K. split; [lia|]. split; [split; auto; split; auto; congruence|]. split; [exact ED|]. left.
          destruct (Nat.eq_dec v 1) as [->|]; [|lia]. exfalso. apply NM. split; auto. intros u Iu.
          apply (decode_before a nv HC 1 K u); auto; [lia|]. unfold decode. rewrite <- ED. exact Iu.
    Qed.

    (** The graph keeps its invariants. *)
    Lemma kept_good {half} g' : goodR half a nv g0 mcs -> kept a nv g0 g' -> search_cur g' = c0 -> zero_from (edge_bits g') c0 -> goodR half a nv g' mcs.
    Proof.
      intros [B _] KE SC ZF. split; [|rewrite SC; auto]. rewrite SC. destruct B as [B1 B2 B3 B4 B5]. split; auto.
      - eapply kept_shape; eauto.
      - destruct B3 as (M & H1 & H2). exists M. pose proof (ke_core _ _ _ _ KE) as E. unfold core in E.
        assert (ED : max_degree g' = max_degree g0) by congruence. rewrite ED, (ke_len _ _ _ _ KE). split; auto.
      - apply KE.
      - rewrite (ke_loc _ _ _ _ KE). auto.
    Qed.
  End Run.

  Lemma drain_good {half} g mcs lr k m cu fin fuel q en l : goodR half a nv g mcs -> drain fuel lr (mkP (Some g) n m cu fin) (new_enum k) = Ok (q, en, l) ->
    exists g', q = mkP (Some g') n m cu fin /\ goodR half a nv g' mcs /\ kept a nv g g' /\ search_cur g' = search_cur g.
  Proof.
    intros G E. pose proof (good_ready g mcs G) as RD.
    destruct (drain_ready g mcs RD m cu fin lr k) as (l' & (g' & en' & DR & KE & SC & ZF) & _).
    pose proof (drain_unique _ _ _ _ _ _ _ _ E DR) as EQ. injection EQ as -> -> ->.
    exists g'. split; auto. split; [|auto]. apply (kept_good g mcs g'); auto.
  Qed.

  Lemma kept_nz g g' : kept a nv g g' -> nz a g -> nz a g'.
  Proof. intros KE [Z1 Z2]. split; rewrite (ke_loc _ _ _ _ KE); auto. rewrite (ke_size _ _ _ _ KE). auto. Qed.

  Lemma kept_start g g' : kept a nv g g' -> search_start g' = search_start g.
  Proof. intros KE. pose proof (ke_core _ _ _ _ KE) as E. unfold core in E. inversion E. auto. Qed.

  Lemma kept_wide g g' : kept a nv g g' -> wide a nv g -> wide a nv g'.
  Proof. intros KE W. pose proof (ke_core _ _ _ _ KE) as E. unfold core in E. unfold wide.
    assert (EL : CLIQUE_LIMIT g' = CLIQUE_LIMIT g) by congruence. rewrite EL. exact W. Qed.

  Lemma decode_single v : 1 <= v < nv -> decode a v (fun x => (x =? sp a v) || false) = [v].
  Proof.
    intros Hv. destruct (sp_spec a nv HS Hself v ltac:(lia)) as [S1 S2]. apply sorted_ext.
    - apply (rooted_clique a n adj GR v _); [lia| |].
      + split; [rewrite Nat.eqb_refl; auto|]. intros p Hp E. rewrite orb_false_r in E. apply Nat.eqb_eq in E. auto.
      + intros p q Hp Hq E1 E2 N. rewrite orb_false_r in *. apply Nat.eqb_eq in E1, E2. congruence.
    - repeat constructor.
    - intros x. rewrite decode_in. split.
      + intros (p & Hp & E & <-). rewrite orb_false_r in E. apply Nat.eqb_eq in E. subst p. left. auto.
      + intros [<-|[]]. exists (sp a v). split; auto. split; auto. rewrite Nat.eqb_refl. auto.
  Qed.

  (** A step of an iterator of size 0 or 1, which needs no scratch space. *)
  Lemma next_small {half} g mcs lr m cu fin en : goodR half a nv g mcs -> e_size en <= 1 ->
    wp (next_clique lr (mkP (Some g) n m cu fin) en) (fun r => let '(q, en', c) := r in e_size en' = e_size en
       /\ (e_size en = 0 -> c = Raise EStopIteration)
       /\ (e_size en = 1 -> 1 <= e_cur en -> match c with Ret c => c = [e_cur en] /\ e_cur en <= n /\ e_cur en' = e_cur en + 1
                                                   | Raise x => x = EStopIteration /\ n < e_cur en end)
       /\ exists g', q = mkP (Some g') n m cu fin /\ goodR half a nv g' mcs /\ kept a nv g g' /\ search_cur g' = search_cur g).
  Proof.
    intros G L. pose proof (good_ready g mcs G) as RD. pose proof (re_eb _ _ RD) as HE. pose proof (ready_kept g mcs RD) as KE.
    pose proof (re_shape _ _ RD) as SH.
    assert (ST : forall g1 mc v, shape a nv g1 mc -> v < nv -> (exists s, stores a g1 v s) -> exists c, stored_clique g1 v = Ok (g1, c)).
    { intros g1 mc v S1 Hv (s & K & R & _). exists (decode a v K). apply (stored_decode g1 mc v K); auto. }
    unfold next_clique. cbn [p_G p_nvert]. apply wp_bind.
    assert (W : wp (en_process_graph lr g en) (fun r => let '(g1, en1, v) := r in e_size en1 = e_size en /\ kept a nv g g1
       /\ search_cur g1 = search_cur g /\ zero_from (edge_bits g1) (search_cur g)
       /\ (e_size en = 0 -> n < v)
       /\ (e_size en = 1 -> e_cur en = v /\ (v <= n -> e_cur en1 = v + 1 /\ rep (edge_bits g1) (eb a v) (rlen a v) (fun x => (x =? sp a v) || false))))).
    { unfold en_process_graph. destruct (Nat.eqb_spec (e_size en) 0) as [E0|E0].
      { apply wp_ok. cbn [e_size]. split; auto. split; auto. split; auto. split; [apply (re_zero _ _ RD)|]. rewrite (sh_nv _ _ _ _ SH). split; intros; lia. }
      assert (E1 : e_size en = 1) by lia. rewrite E1. cbn [Nat.eqb andb]. rewrite (sh_nv _ _ _ _ SH).
      destruct (Nat.ltb_spec (e_cur en) nv) as [Hv|Hv].
      - set (v := e_cur en) in *. destruct (sp_spec a nv HS Hself v Hv) as [S1 S2].
        destruct (ke_bits _ _ _ _ KE v Hv) as (s & K & R1 & R2 & R3 & R4). set (K1 := fun x => (x =? sp a v) || false).
        rewrite (sh_vs _ _ _ _ SH), rd_vert by lia. cbn [bind]. unfold live. rewrite (sh_live _ _ _ _ SH). cbn [bind mkvert vbits vspos].
        apply wp_bind. eapply wp_mono; [apply (bits_clear0_spec (edge_bits g) (eb a v) (rlen a v) K); auto; apply (sh_mem _ _ _ _ SH)|].
        intros m1 (M1 & M2 & M3). apply wp_bind.
        eapply wp_mono; [apply (bits_set_spec m1 (eb a v) (rlen a v) _ _ (sp a v) M1 M2); auto|].
        intros m2 (M4 & M5 & M6). apply wp_ok. cbn [e_size]. split; auto.
        pose proof (same_out_trans _ _ _ _ _ M3 M6) as SO.
        split; [|split; [|split; [|split]]]; auto; [| |lia].
        + apply (kept_store a nv g g m2 v K1); auto.
          * split; [unfold K1; rewrite Nat.eqb_refl; auto|]. intros p Hp E. unfold K1 in E. rewrite orb_false_r in E. apply Nat.eqb_eq in E. auto.
          * intros p q Hp Hq E1' E2' N. unfold K1 in *. rewrite orb_false_r in *. apply Nat.eqb_eq in E1', E2'. congruence.
        + intros i Hi. cbn [set_mem edge_bits]. destruct SO as [_ SO]. rewrite SO; [apply (re_zero _ _ RD); auto|].
          pose proof (block_end a nv v Hv). lia.
      - assert (T : en_turn lr (g, en) = Ok (Done (g, en, e_cur en))).
        { unfold en_turn. rewrite (sh_nv _ _ _ _ SH). destruct (Nat.ltb_spec (e_cur en) nv); [lia|auto]. }
        assert (H : forall f, loop2 f (en_turn lr) (g, en) = Ok (Done (g, en, e_cur en))).
        { induction f as [|f IH]; cbn [loop2]; auto. rewrite IH. reflexivity. }
        unfold run2. rewrite H. apply wp_ok. split; auto. split; auto. split; auto. split; [apply (re_zero _ _ RD)|]. split; [lia|]. intros _. split; auto. lia. }
    eapply wp_mono; [exact W|]. intros [[g1 en1] v] (Z & KE1 & SC & ZF & V0 & V1).
    pose proof (kept_good g mcs g1 G KE1 SC ZF) as G1.
    destruct (Nat.ltb_spec n v) as [Hv|Hv].
    - apply wp_ok. split; auto. split; auto. split; [|exists g1; auto]. intros E1 _. destruct (V1 E1) as [<- _]. auto.
    - destruct (ST g1 mcs v (kept_shape _ _ _ _ SH _ KE1) ltac:(lia) (ke_bits _ _ _ _ KE1 v ltac:(lia))) as (c & E). rewrite E. cbn [bind].
      apply wp_ok. split; auto. split; [intros E0; specialize (V0 E0); lia|]. split; [|exists g1; auto]. intros E1 L1.
      destruct (V1 E1) as [EV V2]. destruct (V2 Hv) as [V3 R]. rewrite EV in *. split; auto.
      pose proof (stored_decode g1 mcs v _ (kept_shape _ _ _ _ SH _ KE1) ltac:(lia) R) as E2. rewrite E in E2. injection E2 as ->.
      apply decode_single. lia.
  Qed.

  Lemma hinv_drain p lr k fuel q en l : hinv a n p -> drain fuel lr p (new_enum k) = Ok (q, en, l) -> hinv a n q.
  Proof.
    intros (g & mcs & m & cu & fin & -> & G & Z & SS) E. destruct (drain_good _ _ _ _ _ _ _ _ _ _ _ G E) as (g' & -> & G' & KE & SC).
    exists g', mcs, m, cu, fin. split; auto. split; auto. split; [eapply kept_nz; eauto|]. rewrite (kept_start g g' KE), SC. auto.
  Qed.

  Lemma history_hinv p q : 1 <= n -> hinv a n p -> history p q -> hinv a n q.
  Proof.
    intros Hn H0. induction 1 as [|q e lb ub heur dfs cont q' r H IH LA E|q q' H IH E|q lr k fuel q' en l H IH E|q lr en q' en' r H IH L E]; auto.
    - pose proof (hinv_get a n adj GR q e lb ub heur dfs cont Hn IH LA) as W. rewrite E in W. apply W.
    - pose proof (hinv_reset a n q IH) as W. rewrite E in W. exact W.
    - eapply hinv_drain; eauto.
    - destruct IH as (g & mcs & m & cu & fin & -> & G & Z & SS). pose proof (next_small g mcs lr m cu fin en G L) as W.
      rewrite E in W. destruct W as (_ & _ & _ & g' & -> & G' & KE & SC).
      exists g', mcs, m, cu, fin. split; auto. split; auto. split; [eapply kept_nz; eauto|]. rewrite (kept_start g g' KE), SC. auto.
  Qed.

  (** ** Degrees *)
  Lemma row_degree v : v < nv -> degree adj v (rlen a v - 1).
  Proof.
    intros Hv. exists (filter (fun x => negb (x =? v)) (row a v)).
    assert (NDR : NoDup (row a v)) by (apply sorted_nodup, row_sorted, HS).
    split; [apply NoDup_filter, NDR|]. split.
    - intros u. rewrite filter_In, row_in, negb_true_iff, Nat.eqb_neq, (gra_adj _ _ _ _ _ GR). intuition.
    - assert (I : In v (row a v)) by (rewrite row_in; apply Hself; auto).
      clear - NDR I. induction (row a v) as [|x l IH]; [destruct I|]. inversion NDR; subst. cbn [filter length].
      destruct (Nat.eqb_spec x v) as [->|NE]; cbn [negb].
      + assert (F : filter (fun y => negb (y =? v)) l = l).
        { clear IH NDR I. induction l as [|y l IH]; auto. cbn [filter]. destruct (Nat.eqb_spec y v) as [->|]; [exfalso; apply H1; left; auto|].
          cbn [negb]. f_equal. apply IH; [|inversion H2; auto]. intros I. apply H1. right. auto. }
        rewrite F. lia.
      + destruct I as [|I]; [congruence|]. specialize (IH H2 I). cbn [length]. destruct l; [destruct I|]. cbn [length] in *. lia.
  Qed.

  Lemma degree_fun v d d' : degree adj v d -> degree adj v d' -> d = d'.
  Proof.
    intros (l & N & H & <-) (l' & N' & H' & <-). apply Permutation_length, NoDup_Permutation; auto. intros x. rewrite H, H'. tauto.
  Qed.

  (** ** The order of an enumeration *)
  Lemma opens_one d v v' : clique n adj d -> opens adj d v -> opens adj d v' -> v = v'.
  Proof.
    intros (_ & R & _) [I1 O1] [I2 O2]. destruct (Nat.eq_dec v v') as [|NE]; auto. pose proof (R v I1). pose proof (R v' I2).
    pose proof (O1 v' _ _ I2 ltac:(auto) (row_degree v' ltac:(lia)) (row_degree v ltac:(lia))).
    pose proof (O2 v _ _ I1 NE (row_degree v ltac:(lia)) (row_degree v' ltac:(lia))). lia.
  Qed.

  Lemma listed_asym d d' : clique n adj d -> clique n adj d' -> listed_before adj d d' -> listed_before adj d' d -> False.
  Proof.
    intros C C' (v & v' & O & O' & X) (u & u' & Q & Q' & Y).
    rewrite <- (opens_one d v u') in Y by auto. rewrite <- (opens_one d' v' u) in Y by auto.
    destruct X as [X|[-> X]], Y as [Y|[E Y]]; try lia. exact (lex_asym _ _ X Y).
  Qed.

  Lemma rooted_opens v K : 1 <= v < nv -> rooted a v K -> pclique a v K -> opens adj (decode a v K) v.
  Proof.
    intros Hv R P. split; [apply (decode_root a nv HC); auto; lia|]. intros u du dv Iu NEu Du Dv.
    pose proof (proj1 (proj2 (rooted_clique a n adj GR v K Hv R P)) u Iu) as Hu.
    rewrite (degree_fun _ _ _ Du (row_degree u ltac:(lia))), (degree_fun _ _ _ Dv (row_degree v ltac:(lia))).
    destruct (decode_before a nv HC v K u ltac:(lia) R Iu) as [|B]; [congruence|]. unfold before in B.
    pose proof (len_pos a nv HS Hself u ltac:(lia)). pose proof (len_pos a nv HS Hself v ltac:(lia)).
    apply orb_prop in B. destruct B as [B|B]; [apply Nat.ltb_lt in B; left; lia|]. apply andb_prop in B. destruct B as [B1 B2].
    apply Nat.eqb_eq in B1. apply Nat.ltb_lt in B2. right. split; [congruence|lia].
  Qed.

  Lemma prior_listed k d d' : prior a nv k d d' -> (forall v K, v < nv -> target a v k K -> d = decode a v K -> 1 <= v) -> listed_before adj d d'.
  Proof.
    intros (v & K & v' & K' & Hv & Hv' & T & T' & -> & -> & X) V0. pose proof (V0 v K Hv T eq_refl) as L. exists v, v'.
    split; [apply rooted_opens; [lia|apply T|apply T]|]. split; [apply rooted_opens; [lia|apply T'|apply T']|].
    destruct X as [X|(<- & X)]; [left; auto|]. right. split; auto. apply (lexlt_decode a nv); auto.
  Qed.

  Lemma drain_order g0 mcs : ready g0 mcs -> forall m cu fin lr k,
    exists l, drained g0 m cu fin lr g0 (new_enum k) l /\ StronglySorted (listed_before adj) l.
  Proof.
    intros RD m cu fin lr k. destruct k as [|[|k]].
    - destruct (drain_ready g0 mcs RD m cu fin lr 0) as (l & DR & _ & _ & K0 & _). rewrite (K0 eq_refl) in DR. exists []. split; auto. constructor.
    - destruct (drain_ready g0 mcs RD m cu fin lr 1) as (l & DR & _ & _ & _ & K1 & _). rewrite (K1 eq_refl) in DR. eexists. split; [exact DR|].
      clear. generalize 1. induction n as [|r IH]; intros s; cbn [seq map]; constructor; auto.
      apply Forall_forall. intros d I. apply in_map_iff in I. destruct I as (v & <- & I). apply in_seq in I.
      exists s, v. split; [|split; [|left; lia]]; split; try (left; reflexivity); intros u du dv [<-|[]]; congruence.
    - assert (ES : est a nv lr (S (S k)) g0 g0 (new_enum (S (S k))) ((nv - 1) * 2 ^ (max_degree g0 + 2)) []).
      { split; [eapply ready_kept; eauto|]. split; auto. split; [auto|]. right. do 2 (split; auto). split; auto. split; [apply (re_zero _ _ RD)|].
        split; auto. }
      destruct (drain_big g0 mcs RD m cu fin lr (S (S k)) ltac:(lia) _ _ _ _ ES) as (l & DR & ND & S & C & SO). exists l. split; auto.
      clear - SO S GR HC HS Hself. induction SO as [|d l SO IH F]; constructor; [apply IH; intros; apply S; right; auto|].
      rewrite Forall_forall in *. intros d' I. apply (prior_listed (Datatypes.S (Datatypes.S k))); auto.
      intros v K Hv T E. destruct (S d (or_introl eq_refl)) as (v1 & K1 & Hv1 & T1 & E1 & [L|[_ []]]). cbn [new_enum e_cur] in L.
      assert (v = v1); [|lia]. apply (decode_inj a nv HC v v1 K K1); auto; [apply T|apply T1|congruence].
  Qed.

  Lemma missed_iff d : clique n adj d -> (missed d <-> first_at_1 adj d).
  Proof.
    intros (C1 & C2 & C3). unfold missed, first_at_1. split; intros (I & H); (split; [auto|]).
    - intros u d1 du Iu D1 DU. pose proof (C2 1 I). pose proof (C2 u Iu).
      rewrite (degree_fun _ _ _ D1 (row_degree 1 ltac:(lia))), (degree_fun _ _ _ DU (row_degree u ltac:(lia))).
      destruct (H u Iu) as [->|B]; auto. unfold before in B. apply orb_true_iff in B. rewrite andb_true_iff, !Nat.ltb_lt, Nat.eqb_eq in B. lia.
    - intros u Iu. pose proof (C2 1 I). pose proof (C2 u Iu). destruct (Nat.eq_dec u 1); auto. right.
      pose proof (H u _ _ Iu (row_degree 1 ltac:(lia)) (row_degree u ltac:(lia))) as L.
      pose proof (len_pos a nv HS Hself 1 ltac:(lia)). pose proof (len_pos a nv HS Hself u ltac:(lia)).
      unfold before. apply orb_true_iff. rewrite andb_true_iff, !Nat.ltb_lt, Nat.eqb_eq. lia.
  Qed.
End Gra.
