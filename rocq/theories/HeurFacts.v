(** HeurFacts: the degree heuristic records only cliques, and terminates without touching foreign memory. *)
From Verif Require Import Base MBits MUtils MGraph MHeur SpecBits BaseFacts BitsFacts SetFacts FindFacts SortFacts RowFacts ConstructFacts CardFacts SearchBase.
From Coq Require Import Sorting.Sorted Sorting.Permutation.
Local Open Scope nat_scope.
Local Arguments Nat.sub : simpl never.
Local Arguments Nat.mul : simpl never.

Lemma firstn_upd_lt {A} (l : list A) j x : firstn j (upd l j x) = firstn j l.
Proof. revert j; induction l as [|y l IH]; intros [|j]; simpl; auto. f_equal. auto. Qed.

Lemma firstn_upd_S {A} (l : list A) j x : j < length l -> firstn (S j) (upd l j x) = firstn j l ++ [x].
Proof. revert j; induction l as [|y l IH]; intros [|j] H; simpl in *; try lia; auto. f_equal. apply IH. lia. Qed.

Lemma rd_app1 {A} (l r : list A) i : i < length l -> rd (l ++ r) i = rd l i.
Proof. intros H. unfold rd. rewrite nth_error_app1 by auto. auto. Qed.

Section Heur.
  Variables (a : pairs) (nv cur : nat).
  Hypothesis HC : gctx a nv.
  Hypothesis Hc : cur < nv.
  Let HS := gc_sorted _ _ HC.
  Let Hself := gc_self _ _ HC.
  Let Hb := gc_b _ _ HC.

  Notation N := (rlen a cur).
  Definition ent_of (p : nat) : vdata := mkD (nbr a cur p) (rlen a (nbr a cur p)) p.

  Lemma nb_find0 e val : e < nv ->
    wp (binary_find (map snd a) (Z.of_nat (off a e)) (Z.of_nat (rlen a e)) val) (fun r => fst r = inb val (row a e)).
  Proof.
    intros He. pose proof (nb_find a nv HC e val 0 He ltac:(lia) ltac:(intros; lia)) as H.
    pose proof (row_end a e) as RE. pose proof (gc_z _ _ HC) as Z1.
    pose proof (row_end a e) as RE2. assert (R : off a e + rlen a e <= length a) by (rewrite <- off_S; apply off_le).
    rewrite Nat2Z.inj_0, Z.add_0_r, Z.sub_0_r in H.
    rewrite !wrap_small in H by (unfold p64; lia). eapply wp_mono; [exact H|]. intros r [E _]. exact E.
  Qed.

  (** ** Collecting the neighbours *)
  Definition col (D p2 : nat) (m0 : list BinNums.N) (i : nat) (s : list BinNums.N * list vdata * nat) : Prop :=
    memok (fst (fst s)) /\ rep (fst (fst s)) p2 N (fun x => (x <? i) && candp a cur x)
    /\ same_out m0 (fst (fst s)) p2 (words N) /\ length (snd (fst s)) = D
    /\ snd s = card i (candp a cur) /\ firstn (snd s) (snd (fst s)) = map ent_of (members i (candp a cur)).

  Lemma collect_spec (strict : bool) g mcs mv D p2 m0 lo hi s : shape a nv g mcs -> N <= D -> lo <= hi <= N ->
    (strict = true -> hi <= sp a cur) -> (strict = false -> sp a cur < lo) ->
    col D p2 m0 lo s ->
    wp (heur_collect strict g (mkvert a mv cur) (refer_from p2 D) lo hi s) (col D p2 m0 hi).
  Proof.
    intros SH HD Hl H1 H2 H0. unfold heur_collect.
    apply (wp_for lo hi _ (col D p2 m0)); auto; try lia. clear s H0.
    intros i [[m nb] j] Hi (I1 & I2 & I3 & I4 & I5 & I6). cbn [fst snd] in *.
    pose proof (card_bound i (candp a cur)) as CB.
    cbn [mkvert velo vN]. rewrite (sh_el _ _ _ _ SH), (rd_el a nv HC) by lia. cbn [bind].
    rewrite wr_ok by lia. cbn [bind].
    rewrite (sh_vs _ _ _ _ SH), rd_vert by (apply (nbr_lt a nv HC); lia). cbn [bind mkvert vN].
    assert (C : (if strict then rlen a (nbr a cur i) <=? rlen a cur else rlen a (nbr a cur i) <? rlen a cur) = negb (candp a cur i)).
    { destruct strict.
      - specialize (H1 eq_refl). rewrite (candp_lt a nv HS Hself cur i Hc) by (auto; lia). apply Nat.leb_antisym.
      - specialize (H2 eq_refl). rewrite (candp_gt a nv HS Hself cur i Hc) by (split; auto; lia). apply Nat.ltb_antisym. }
    rewrite C. destruct (candp a cur i) eqn:EC; cbn [negb].
    - rewrite wr_ok by (rewrite upd_length; lia). cbn [bind].
      apply wp_bind. eapply wp_mono; [apply (bits_set_spec m p2 N _ _ i I1 I2); auto; lia|].
      intros m' (M1 & M2 & M3). apply wp_ok. unfold col. cbn [fst snd]. split; auto. split; [|split; [|split; [|split]]].
      + eapply rep_ext; [exact M2|]. intros x Hx. cbv beta.
        destruct (Nat.eqb_spec x i) as [->|].
        * destruct (Nat.ltb_spec i (S i)); [rewrite EC; auto|lia].
        * destruct (Nat.ltb_spec x i), (Nat.ltb_spec x (S i)); auto; lia.
      + eapply same_out_trans; eauto.
      + rewrite !upd_length. auto.
      + rewrite card_S, EC. lia.
      + rewrite firstn_upd_S by (rewrite upd_length; lia). rewrite firstn_upd_lt, I6, members_S, EC, map_app. reflexivity.
    - apply wp_ok. unfold col. cbn [fst snd]. split; auto. split; [|split; [|split; [|split]]]; auto.
      + eapply rep_ext; [exact I2|]. intros x Hx. cbv beta.
        destruct (Nat.ltb_spec x i), (Nat.ltb_spec x (S i)); auto; [lia|]. replace x with i by lia. rewrite EC. auto.
      + rewrite upd_length. auto.
      + rewrite card_S, EC. lia.
      + rewrite firstn_upd_lt, I6, members_S, EC, app_nil_r. reflexivity.
  Qed.

  (** ** The size of the clique the greedy loop picks *)
  Definition keep (d : nat) (X : nat -> bool) (x : nat) : bool := (negb (x =? d) && X x) && padj a cur d x.

  Fixpoint gsize (l : list vdata) (csz : nat) (X : nat -> bool) : nat :=
    match l with
    | [] => csz
    | d :: r => if X (d_pos d) then gsize r (S csz) (keep (d_pos d) X) else gsize r csz X
    end.

  Lemma gsize_ext l csz X Y : (forall d, In d l -> X (d_pos d) = Y (d_pos d)) -> gsize l csz X = gsize l csz Y.
  Proof.
    revert csz X Y. induction l as [|d r IH]; intros csz X Y H; auto. cbn [gsize].
    rewrite (H d) by (left; auto). destruct (Y (d_pos d)); apply IH; intros; unfold keep; rewrite ?H by (right; auto); auto.
  Qed.

  Lemma gsize_none l csz X : (forall d, In d l -> X (d_pos d) = false) -> gsize l csz X = csz.
  Proof. induction l as [|d r IH]; intros H; auto. cbn [gsize]. rewrite (H d) by (left; auto). apply IH. intros; apply H. right; auto. Qed.

  Lemma gsize_le l csz X : (forall d, In d l -> d_pos d < N) -> csz <= gsize l csz X <= csz + card N X.
  Proof.
    revert csz X. induction l as [|d r IH]; intros csz X H; [cbn [gsize]; lia|]. cbn [gsize].
    destruct (X (d_pos d)) eqn:E.
    - specialize (IH (S csz) (keep (d_pos d) X) ltac:(intros; apply H; right; auto)).
      assert (C : card N (keep (d_pos d) X) <= card N (fun i => negb (i =? d_pos d) && X i)).
      { apply card_le. intros i Hi EK. unfold keep in EK. apply andb_prop in EK. tauto. }
      pose proof (card_remove N X (d_pos d) ltac:(apply H; left; auto) E). lia.
    - apply IH. intros; apply H; right; auto.
  Qed.

  (** What the heuristic makes of an incumbent of size [c] at this root. *)
  Definition hstep (srt : list vdata -> list vdata) (c : nat) : nat :=
    if card N (candp a cur) <=? c then c
    else Nat.max c (gsize (srt (map ent_of (members N (candp a cur)))) 1 (candp a cur)).

  Lemma hstep_le srt c : c <= hstep srt c.
  Proof. clear Hc. unfold hstep. destruct (_ <=? _); lia. Qed.

  Lemma hstep_quiet srt c c' : hstep srt c = c -> c <= c' -> hstep srt c' = c'.
  Proof.
    clear Hc. unfold hstep. intros H L. destruct (Nat.leb_spec (card N (candp a cur)) c), (Nat.leb_spec (card N (candp a cur)) c'); lia.
  Qed.

  Lemma hstep_idem srt c : hstep srt (hstep srt c) = hstep srt c.
  Proof.
    clear Hc. unfold hstep. destruct (Nat.leb_spec (card N (candp a cur)) c) as [L|L].
    - destruct (Nat.leb_spec (card N (candp a cur)) c); [auto|lia].
    - destruct (_ <=? _); lia.
  Qed.

  (** ** The greedy loop *)
  Section Loop.
    Variables (g1 : graph) (mcs : nat -> nat) (D c0 h : nat) (L rest : list vdata).
    Hypothesis SH : shape a nv g1 mcs.
    Hypothesis HD : N <= D.
    Hypothesis He : eb a nv <= c0.
    Hypothesis Hspace : c0 + 2 * words D <= length (edge_bits g1).
    Hypothesis HL : Permutation L (map ent_of (members N (candp a cur))).
    Notation p1 := c0.
    Notation p2 := (c0 + words D).

    Lemma L_ent i d : nth_error L i = Some d -> d = ent_of (d_pos d) /\ d_pos d < N /\ candp a cur (d_pos d) = true.
    Proof.
      intros E. apply nth_error_In in E. apply (Permutation_in _ HL) in E. apply in_map_iff in E.
      destruct E as (p & <- & I). unfold members in I. apply filter_In in I. destruct I as [I1 I2]. apply in_seq in I1.
      cbn [ent_of d_pos]. split; auto. split; auto. lia.
    Qed.

    Lemma L_get x : x < N -> candp a cur x = true -> exists i, i < length L /\ nth_error L i = Some (ent_of x).
    Proof.
      intros Hx HP. assert (I : In (ent_of x) L).
      { apply (Permutation_in _ (Permutation_sym HL)). apply in_map. apply filter_In. split; auto. apply in_seq. lia. }
      apply In_nth_error in I. destruct I as [i E]. exists i. split; auto. apply nth_error_Some. congruence.
    Qed.

    Lemma rd_L i : i < length L -> exists d, rd (L ++ rest) i = Ok d /\ nth_error L i = Some d.
    Proof.
      intros H. destruct (nth_error L i) as [d|] eqn:E; [|apply nth_error_None in E; lia].
      exists d. split; auto. rewrite rd_app1 by auto. apply rd_some. auto.
    Qed.

    Lemma filter_spec g i di m cl X : edge_list g = map snd a -> vertices g = verts a nv mcs ->
      nth_error L i = Some di -> memok m -> rep m p2 N X -> cl = card N X -> (forall x, x < N -> X x = true -> candp a cur x = true) ->
      wp (heur_filter g (L ++ rest) (refer_from p2 D) (length L) i m cl)
         (fun r => exists Y, memok (fst r) /\ rep (fst r) p2 N Y /\ snd r = card N Y /\ same_out m (fst r) p2 (words N)
            /\ (forall x, x < N -> Y x = true -> X x = true)
            /\ (forall x, x < N -> X x = true -> padj a cur (d_pos di) x = true -> Y x = true)
            /\ forall k dk, i < k -> nth_error L k = Some dk -> Y (d_pos dk) = true -> padj a cur (d_pos di) (d_pos dk) = true).
    Proof.
      intros Eel Evs Ei HM HR Ecl HX. destruct (L_ent i di Ei) as (Di & Dp & Dc).
      assert (Hi : i < length L) by (apply nth_error_Some; congruence).
      unfold heur_filter. rewrite rd_app1 by auto. rewrite (rd_some _ _ _ Ei). cbn [bind].
      apply (wp_for (i + 1) (length L) _ (fun j r => exists Y, memok (fst r) /\ rep (fst r) p2 N Y /\ snd r = card N Y /\ same_out m (fst r) p2 (words N)
            /\ (forall x, x < N -> Y x = true -> X x = true)
            /\ (forall x, x < N -> X x = true -> padj a cur (d_pos di) x = true -> Y x = true)
            /\ forall k dk, i < k < j -> nth_error L k = Some dk -> Y (d_pos dk) = true -> padj a cur (d_pos di) (d_pos dk) = true)); [lia| | |].
      - exists X. cbn [fst snd]. split; auto. split; auto. split; auto. split; [apply same_out_refl|]. split; auto. split; auto. intros k dk Hk. lia.
      - intros j [m' cl'] Hj (Y & Y1 & Y2 & Y3 & Y4 & Y5 & Y7 & Y6). cbn [fst snd] in *.
        destruct (rd_L j ltac:(lia)) as (dj & -> & Ej). cbn [bind]. destruct (L_ent j dj Ej) as (Dj & Djp & Djc).
        rewrite (bits_get_spec m' p2 N Y _ _ Y2) by auto. cbn [bind].
        destruct (Y (d_pos dj)) eqn:EY; cbn [negb].
        + rewrite Dj, Di. cbn [ent_of d_id d_pos]. unfold find_if_neighbors. rewrite Evs, rd_vert by (apply (nbr_lt a nv HC); auto).
          cbn [bind mkvert velo vN]. rewrite Eel. apply wp_bind. eapply wp_mono; [apply nb_find0; apply (nbr_lt a nv HC); auto|].
          intros [fnd ans] E. cbn [fst snd] in E. rewrite E.
          assert (EP : inb (nbr a cur (d_pos di)) (row a (nbr a cur (d_pos dj))) = padj a cur (d_pos di) (d_pos dj)).
          { rewrite (padj_sym a nv HC) by auto. reflexivity. }
          rewrite EP. destruct (padj a cur (d_pos di) (d_pos dj)) eqn:PJ.
          * apply wp_ok. exists Y. cbn [fst snd]. do 6 (split; auto).
            intros k dk Hk Ek EYk. destruct (Nat.eq_dec k j) as [->|]; [congruence|]. apply (Y6 k); auto. lia.
          * apply wp_bind. eapply wp_mono; [apply (bits_reset_spec m' p2 N Y _ (d_pos dj) Y1 Y2); auto|].
            intros m'' (Z1 & Z2 & Z3). apply wp_ok. exists (fun x => negb (x =? d_pos dj) && Y x). cbn [fst snd].
            split; auto. split; auto. split; [rewrite <- (card_remove N Y (d_pos dj)) in Y3; auto; lia|].
            split; [eapply same_out_trans; eauto|]. split; [|split].
            -- intros x Hx E2. apply andb_prop in E2. apply Y5; tauto.
            -- intros x Hx E2 E3. rewrite Y7 by auto. destruct (Nat.eqb_spec x (d_pos dj)) as [->|]; [congruence|auto].
            -- intros k dk Hk Ek EYk. apply andb_prop in EYk. destruct EYk as [E1 E2].
               destruct (Nat.eq_dec k j) as [->|]; [|apply (Y6 k); auto; lia].
               rewrite Ej in Ek. injection Ek as <-. rewrite Nat.eqb_refl in E1. discriminate.
        + apply wp_ok. exists Y. cbn [fst snd]. do 6 (split; auto).
          intros k dk Hk Ek EYk. destruct (Nat.eq_dec k j) as [->|]; [congruence|]. apply (Y6 k); auto. lia.
      - intros [m' cl'] (Y & Y1 & Y2 & Y3 & Y4 & Y5 & Y7 & Y6). exists Y. do 6 (split; auto).
        intros k dk Hk Ek. apply (Y6 k); auto. split; auto. apply nth_error_Some. congruence.
    Qed.

    (** State of the greedy loop: R the clique so far, X the candidates left. *)
    Definition ginv (i csz cl : nat) (m : list BinNums.N) (R X : nat -> bool) : Prop :=
      memok m /\ rep m p1 N R /\ rep m p2 N X /\ same_out (edge_bits g1) m c0 (2 * words D)
      /\ rooted a cur R /\ pclique a cur R /\ csz = card N R /\ cl = card N X /\ 0 < cl
      /\ (forall x, x < N -> X x = true -> candp a cur x = true /\ R x = false /\ forall y, y < N -> R y = true -> padj a cur x y = true)
      /\ (forall k dk, k < i -> nth_error L k = Some dk -> X (d_pos dk) = false)
      /\ gsize (skipn i L) csz X = h.

    Lemma L_pos_inj i j di dj : nth_error L i = Some di -> nth_error L j = Some dj -> d_pos di = d_pos dj -> i = j.
    Proof.
      intros Ei Ej E. assert (ND : NoDup L).
      { apply (Permutation_NoDup (Permutation_sym HL)). apply FinFun.Injective_map_NoDup.
        - intros x y E'. unfold ent_of in E'. congruence.
        - apply sorted_nodup. apply sel_sorted. }
      rewrite NoDup_nth_error in ND. apply ND; [apply nth_error_Some; congruence|].
      destruct (L_ent _ _ Ei) as [-> _], (L_ent _ _ Ej) as [-> _] || idtac. rewrite Ei, Ej. f_equal.
      destruct (L_ent _ _ Ei) as [E1 _], (L_ent _ _ Ej) as [E2 _]. rewrite E1, E2, E. reflexivity.
    Qed.

    Definition greedy (s : graph * nat * nat * nat) : outcome (step (graph * nat * nat * nat) graph) :=
      let '(g, i, csz, cl) := s in
         if i <? length L then
           di <- rd (L ++ rest) i;;
           b <- bits_get (edge_bits g) (refer_from p2 D) (d_pos di);;
           if negb b then Ok (Cont (g, i + 1, csz, cl))
           else
             m <- bits_set (edge_bits g) (refer_from p1 D) (d_pos di);;
             let csz := csz + 1 in
             m <- bits_reset m (refer_from p2 D) (d_pos di);;
             let cl := cl - 1 in
             '(m, cl) <- heur_filter g (L ++ rest) (refer_from p2 D) (length L) i m cl;;
             let g := set_mem g m in
             let pot := csz + cl in
             if pot <=? CUR_MAX_SIZE g then Ok (Done g)
             else if cl =? 0 then
               v <- rd (vertices g) cur;;
               _ <- live g;;
               m <- bits_copy_data (edge_bits g) (vbits v) (refer_from p1 D);;
               Ok (Done (set_best (set_mem g m) csz cur))
             else Ok (Cont (g, i + 1, csz, cl))
         else Ok (Done g).

    Definition gdone (g' : graph) : Prop :=
      prog a nv (set_cur g1 c0) (set_cur g' c0) mcs cur /\ search_cur g' = search_cur g1 /\ vertices g' = vertices g1
      /\ (forall k, c0 + 2 * words D <= k -> nth k (edge_bits g') 0%N = nth k (edge_bits g1) 0%N)
      /\ (CUR_MAX_SIZE g1 <= 1 -> 2 <= CUR_MAX_SIZE g')
      /\ CUR_MAX_SIZE g' = Nat.max (CUR_MAX_SIZE g1) h.

    Lemma gdone_none m : memok m -> same_out (edge_bits g1) m c0 (2 * words D) -> 1 < CUR_MAX_SIZE g1 -> h <= CUR_MAX_SIZE g1 -> gdone (set_mem g1 m).
    Proof.
      intros HM [SO1 SO2] HB Hh. split; [|split; [|split; [|split; [|split]]]]; auto.
      - apply (prog_arena a nv (set_cur g1 c0) (set_cur g1 c0) mcs cur m c0 Hc); auto.
        + apply prog_refl. destruct SH as [A1 A2 A3 A4 A5]. split; auto.
        + intros k Hk. cbn [set_cur search_cur edge_bits] in *. apply SO2. lia.
      - cbn [set_mem edge_bits]. intros k Hk. apply SO2. lia.
      - cbn [set_mem CUR_MAX_SIZE]. lia.
    Qed.

    Lemma skipn_nth {A} (l : list A) i x : nth_error l i = Some x -> skipn i l = x :: skipn (S i) l.
    Proof. revert i; induction l as [|y l IH]; intros [|i] H; cbn [nth_error] in H; try discriminate; [injection H as ->; reflexivity|]. cbn [skipn]. rewrite (IH i H). reflexivity. Qed.

    Lemma skipn_pos i d : In d (skipn i L) -> d_pos d < N.
    Proof.
      intros I. assert (I' : In d L) by (rewrite <- (firstn_skipn i L); apply in_or_app; auto).
      apply In_nth_error in I'. destruct I' as [k E]. apply (L_ent k d E).
    Qed.

    Lemma greedy_spec g i csz cl m R X : g = set_mem g1 m -> ginv i csz cl m R X -> i <= length L ->
      wp (greedy (g, i, csz, cl))
         (fun r => match r with
                   | Cont (g', i', csz', cl') => i < i' <= length L /\ exists m' R' X', g' = set_mem g1 m' /\ ginv i' csz' cl' m' R' X'
                   | Done g' => gdone g'
                   end).
    Proof.
      intros -> (G1 & G2 & G3 & G4 & G5 & G6 & G7 & G8 & G9 & G10 & G11 & G12) Hi. unfold greedy.
      assert (WD : words N <= words D) by (apply words_mono; auto).
      assert (LM : length m = length (edge_bits g1)) by apply G4.
      destruct (Nat.ltb_spec i (length L)) as [Li|Li].
      2: { (* no candidate can be left *)
        exfalso. rewrite G8 in G9. apply card_pos in G9. destruct G9 as (x & Hx & EX).
        destruct (G10 x Hx EX) as (CX & _). destruct (L_get x Hx CX) as (k & Hk & Ek).
        pose proof (G11 k _ ltac:(lia) Ek) as F. cbn [ent_of d_pos] in F. congruence. }
      destruct (rd_L i Li) as (di & -> & Ei). cbn [bind]. destruct (L_ent i di Ei) as (Di & Dp & Dc).
      cbn [set_mem edge_bits]. rewrite (bits_get_spec m p2 N X _ _ G3) by auto. cbn [bind].
      destruct (X (d_pos di)) eqn:EX; cbn [negb].
      2: { apply wp_ok. split; [lia|]. exists m, R, X. split; [reflexivity|]. unfold ginv.
        do 10 (split; auto). split; [|rewrite Nat.add_1_r; rewrite (skipn_nth L i di Ei) in G12; cbn [gsize] in G12; rewrite EX in G12; exact G12].
        intros k dk Hk Ek. destruct (Nat.eq_dec k i) as [->|]; [congruence|]. apply (G11 k); auto. lia. }
      destruct (G10 _ Dp EX) as (CX & RX & AX).
      apply wp_bind. eapply wp_mono; [apply (bits_set_spec m p1 N R _ (d_pos di) G1 G2); auto|].
      intros m1 (A1 & A2 & A3).
      assert (A4 : rep m1 p2 N X) by (refine (rep_frame m m1 _ _ X p1 (words N) G3 A3 ltac:(lia))).
      apply wp_bind. eapply wp_mono; [apply (bits_reset_spec m1 p2 N X _ (d_pos di) A1 A4); auto|].
      intros m2 (B1 & B2 & B3).
      assert (B4 : rep m2 p1 N (fun x => (x =? d_pos di) || R x)) by (refine (rep_frame m1 m2 _ _ _ p2 (words N) A2 B3 ltac:(lia))).
      cbv zeta. apply wp_bind. eapply wp_mono; [apply (filter_spec (set_mem g1 m) i di m2 _ _ (sh_el _ _ _ _ SH) (sh_vs _ _ _ _ SH) Ei B1 B2)|].
      { rewrite G8, <- (card_remove N X (d_pos di)) by auto. lia. }
      { intros x Hx E. apply andb_prop in E. apply (G10 x Hx). tauto. }
      intros [m3 cl3] (Y & Y1 & Y2 & Y3 & Y4 & Y5 & Y8 & Y6). cbn [fst snd] in *.
      assert (Y7 : rep m3 p1 N (fun x => (x =? d_pos di) || R x)) by (refine (rep_frame m2 m3 _ _ _ p2 (words N) B4 Y4 ltac:(lia))).
      set (R' := fun x => (x =? d_pos di) || R x) in *.
      assert (CR : card N R' = S (card N R)) by (apply card_add; auto).
      assert (SO : same_out (edge_bits g1) m3 c0 (2 * words D)).
      { eapply same_out_trans; [exact G4|]. eapply same_out_trans; [eapply same_out_weaken; [exact A3|lia|lia]|].
        eapply same_out_trans; [eapply same_out_weaken; [exact B3|lia|lia]|]. eapply same_out_weaken; [exact Y4|lia|lia]. }
      assert (RR : rooted a cur R').
      { destruct G5 as [R1 R2]. split; [unfold R'; rewrite R1; apply orb_true_r|]. intros p Hp E. unfold R' in E.
        destruct (Nat.eqb_spec p (d_pos di)) as [->|]; auto. }
      assert (PC : pclique a cur R').
      { intros p q Hp Hq E1 E2 NE. unfold R' in E1, E2.
        destruct (Nat.eqb_spec p (d_pos di)) as [->|]; destruct (Nat.eqb_spec q (d_pos di)) as [->|]; cbn [orb] in *; try congruence; auto.
        - rewrite (padj_sym a nv HC) by auto. apply AX; auto. }
      assert (YC : forall x, x < N -> Y x = true -> candp a cur x = true /\ R' x = false /\ forall y, y < N -> R' y = true -> padj a cur x y = true).
      { intros x Hx E. pose proof (Y5 x Hx E) as E2. apply andb_prop in E2. destruct E2 as [E2 E3].
        destruct (G10 x Hx E3) as (C1 & C2 & C3). split; auto. split.
        - unfold R'. apply negb_true_iff in E2. rewrite E2. auto.
        - intros y Hy Ey. unfold R' in Ey. destruct (Nat.eqb_spec y (d_pos di)) as [->|]; [|auto].
          rewrite (padj_sym a nv HC) by auto. destruct (L_get x Hx C1) as (k & Hk & Ek).
          apply (Y6 k (ent_of x)); auto.
          destruct (Nat.lt_ge_cases i k) as [|GE]; auto. exfalso. destruct (Nat.eq_dec k i) as [->|].
          + rewrite Ei in Ek. injection Ek as ->. cbn [ent_of d_pos] in E2. rewrite Nat.eqb_refl in E2. discriminate.
          + pose proof (G11 k _ ltac:(lia) Ek) as F. cbn [ent_of d_pos] in F. congruence. }
      assert (HH : gsize (skipn (S i) L) (csz + 1) Y = h).
      { rewrite <- G12, (skipn_nth L i di Ei). cbn [gsize]. rewrite EX, Nat.add_1_r. apply gsize_ext.
        intros d Id. pose proof (skipn_pos (S i) d Id) as Dd. unfold keep.
        destruct (padj a cur (d_pos di) (d_pos d)) eqn:PJ.
        - rewrite andb_true_r. destruct (negb (d_pos d =? d_pos di) && X (d_pos d)) eqn:E2.
          + apply Y8; auto.
          + destruct (Y (d_pos d)) eqn:E3; auto. rewrite (Y5 _ Dd E3) in E2. discriminate.
        - rewrite andb_false_r. destruct (Y (d_pos d)) eqn:E3; auto. destruct (YC _ Dd E3) as (_ & _ & YA).
          specialize (YA (d_pos di) Dp). rewrite (padj_sym a nv HC), PJ in YA by auto. discriminate YA.
          unfold R'. rewrite Nat.eqb_refl. reflexivity. }
      pose proof (gsize_le (skipn (S i) L) (csz + 1) Y (skipn_pos (S i))) as HB. rewrite HH, <- Y3 in HB.
      cbn [set_mem CUR_MAX_SIZE].
      destruct (Nat.leb_spec (csz + 1 + cl3) (CUR_MAX_SIZE g1)) as [LE|GT].
      { apply wp_ok. apply (gdone_none m3); auto; [|lia]. assert (0 < csz); [|lia]. rewrite G7. apply card_pos.
        exists (sp a cur). split; [apply (sp_spec a nv HS Hself cur Hc)|apply G5]. }
      destruct (Nat.eqb_spec cl3 0) as [Z|NZ].
      - subst cl3. cbn [set_mem vertices edge_bits bits_live]. unfold live. cbn [set_mem bits_live]. rewrite (sh_live _ _ _ _ SH), (sh_vs _ _ _ _ SH), rd_vert by auto.
        cbn [bind mkvert vbits]. destruct SO as [SO1 SO2]. pose proof (block_end a nv cur Hc) as BE.
        apply wp_bind. eapply wp_mono; [apply (bits_copy_data_spec m3 (eb a cur) p1 N R' _ _ Y1 Y7); auto; lia|].
        intros m4 (M1 & M2 & [M3 M4]). apply wp_ok.
        assert (0 < csz) as PC0. { rewrite G7. apply card_pos. exists (sp a cur). split; [apply (sp_spec a nv HS Hself cur Hc)|apply G5]. }
        split; [|split; [|split; [|split; [|split]]]]; auto.
        + split; unfold core; cbn [set_cur set_best set_mem edge_bits edge_list el_size eb_size search_start search_cur search_end n_vert max_degree CLIQUE_LIMIT bits_live CUR_MAX_SIZE CUR_MAX_LOC vertices]; auto; try lia.
          * intros k Hk NB. rewrite M4 by exact NB. apply SO2. lia.
          * right. split; [lia|]. split; auto. split.
            -- exists (mcs cur). split; auto. rewrite (sh_vs _ _ _ _ SH). unfold verts. apply map_ext_in. intros k _.
               destruct (Nat.eqb_spec k cur) as [->|]; auto.
            -- exists R'. split; auto. split; auto. split; auto. lia.
        + cbn [set_best set_mem edge_bits]. intros k Hk. rewrite M4 by (unfold in_block; lia). apply SO2. lia.
        + cbn [set_best set_mem CUR_MAX_SIZE]. lia.
        + cbn [set_best set_mem CUR_MAX_SIZE]. lia.
      - apply wp_ok. split; [lia|]. exists m3, R', Y. split; [reflexivity|]. unfold ginv.
        split; auto. split; auto. split; auto. split; auto. split; auto. split; auto.
        split; [lia|]. split; auto. split; [lia|]. split; auto. split; [|rewrite Nat.add_1_r; exact HH].
        intros k dk Hk Ek. destruct (Y (d_pos dk)) eqn:EY; auto. exfalso. destruct (L_ent k dk Ek) as (_ & Dk & _).
        pose proof (Y5 _ Dk EY) as E2. apply andb_prop in E2. destruct E2 as [E2 E3].
        destruct (Nat.eq_dec k i) as [->|].
        + rewrite Ei in Ek. injection Ek as ->. rewrite Nat.eqb_refl in E2. discriminate.
        + rewrite (G11 k dk) in E3; auto. discriminate. lia.
    Qed.
  End Loop.

  (** ** One root *)
  Lemma heur_process_vertex_spec srt g nb mcs c0 : (forall l, Permutation (srt l) l) ->
    shape a nv g mcs -> N <= max_degree g -> length nb = max_degree g -> eb a nv <= c0 ->
    c0 + 2 * words (max_degree g) <= length (edge_bits g) ->
    wp (heur_process_vertex srt g nb cur (refer_from c0 (max_degree g)) (refer_from (c0 + words (max_degree g)) (max_degree g)))
       (fun r => prog a nv (set_cur g c0) (set_cur (fst r) c0) mcs cur /\ search_cur (fst r) = search_cur g /\ vertices (fst r) = vertices g
          /\ (forall k, c0 + 2 * words (max_degree g) <= k -> nth k (edge_bits (fst r)) 0%N = nth k (edge_bits g) 0%N)
          /\ length (snd r) = max_degree g
          /\ (2 <= bound a cur -> CUR_MAX_SIZE g = 0 -> 2 <= CUR_MAX_SIZE (fst r))
          /\ CUR_MAX_SIZE (fst r) = hstep srt (CUR_MAX_SIZE g)).
  Proof.
    intros HP SH HD Hnb He Hsp. set (D := max_degree g) in *.
    assert (WD : words N <= words D) by (apply words_mono; auto).
    destruct (sp_spec a nv HS Hself cur Hc) as [S1 S2].
    pose proof (len_pos a nv HS Hself cur Hc) as NP.
    unfold heur_process_vertex. rewrite (sh_vs _ _ _ _ SH) at 1. rewrite rd_vert by auto. cbn [bind].
    change (vN (mkvert a (mcs cur) cur)) with N. change (vspos (mkvert a (mcs cur) cur)) with (sp a cur).
    apply wp_bind. eapply wp_mono; [apply (bits_clear_spec (edge_bits g) c0 D _ N (sh_mem _ _ _ _ SH)); auto; lia|].
    intros m1 (A1 & A2 & A3).
    apply wp_bind. eapply wp_mono; [apply (bits_clear_spec m1 (c0 + words D) D _ N A1); auto; destruct A3; lia|].
    intros m2 (B1 & B2 & B3).
    assert (B4 : rep m2 c0 N (fun _ => false)) by (refine (rep_frame m1 m2 _ _ _ (c0 + words D) (words D) A2 B3 ltac:(lia))).
    apply wp_bind. eapply wp_mono; [apply (bits_set_spec m2 c0 N _ _ (sp a cur) B1 B4); auto|].
    intros m3 (C1 & C2 & C3).
    assert (C4 : rep m3 (c0 + words D) N (fun _ => false)) by (refine (rep_frame m2 m3 _ _ _ c0 (words N) B2 C3 ltac:(lia))).
    assert (SO3 : same_out (edge_bits g) m3 c0 (2 * words D)).
    { eapply same_out_trans; [eapply same_out_weaken; [exact A3|lia|lia]|].
      eapply same_out_trans; [eapply same_out_weaken; [exact B3|lia|lia]|]. eapply same_out_weaken; [exact C3|lia|lia]. }
    apply wp_bind. eapply wp_mono; [apply (collect_spec true g mcs (mcs cur) D (c0 + words D) m3 0 (sp a cur)); auto; try lia; try discriminate|].
    { unfold col. cbn [fst snd]. split; auto. split; [eapply rep_ext; [exact C4|]; auto|]. split; [apply same_out_refl|]. split; auto. }
    intros s0 I0. apply wp_bind. eapply wp_mono; [apply (collect_spec false g mcs (mcs cur) D (c0 + words D) m3 (sp a cur + 1) N); auto; try lia; try discriminate|].
    { destruct I0 as (I1 & I2 & I3 & I4 & I5 & I6). pose proof (candp_sp a nv HS Hself cur Hc) as CS.
      unfold col. split; auto. split; [|split; [|split; [|split]]]; auto.
      - eapply rep_ext; [exact I2|]. intros x Hx. cbv beta.
        destruct (Nat.ltb_spec x (sp a cur)), (Nat.ltb_spec x (sp a cur + 1)); auto; [lia|].
        replace x with (sp a cur) by lia. rewrite CS. auto.
      - rewrite Nat.add_1_r, card_S, CS. lia.
      - rewrite Nat.add_1_r, members_S, CS, app_nil_r. auto. }
    intros [[m4 nb4] cl] (I1 & I2 & I3 & I4 & I5 & I6). cbn [fst snd] in *.
    assert (E4 : rep m4 c0 N (fun x => (x =? sp a cur) || false)) by (refine (rep_frame m3 m4 _ _ _ (c0 + words D) (words N) C2 I3 ltac:(lia))).
    assert (SO4 : same_out (edge_bits g) m4 c0 (2 * words D)).
    { eapply same_out_trans; [exact SO3|]. eapply same_out_weaken; [exact I3|lia|lia]. }
    cbn [set_mem CUR_MAX_SIZE].
    assert (BD : bound a cur = S cl) by (rewrite I5; reflexivity).
    destruct (Nat.leb_spec cl (CUR_MAX_SIZE g)) as [LE|GT].
    - apply wp_ok. cbn [fst snd]. split; [|split; [|split; [|split; [|split; [|split]]]]]; auto.
      + apply (prog_arena a nv (set_cur g c0) (set_cur g c0) mcs cur m4 c0 Hc); auto.
        * apply prog_refl. destruct SH as [X1 X2 X3 X4 X5]. split; auto.
        * apply SO4.
        * intros k Hk. cbn [set_cur search_cur edge_bits] in *. apply SO4. lia.
      + intros k Hk. cbn [set_mem edge_bits]. apply SO4. lia.
      + cbn [set_mem CUR_MAX_SIZE]. lia.
      + cbn [set_mem CUR_MAX_SIZE]. unfold hstep. rewrite <- I5. destruct (Nat.leb_spec cl (CUR_MAX_SIZE g)); [auto|lia].
    - apply wp_bind.
      set (L := srt (firstn cl nb4)).
      assert (PL : Permutation L (map ent_of (members N (candp a cur)))) by (unfold L; rewrite <- I6; apply HP).
      assert (LL : length L = cl).
      { rewrite (Permutation_length PL), map_length, I5. reflexivity. }
      set (g1 := set_mem g m4).
      assert (SH1 : shape a nv g1 mcs) by (destruct SH as [X1 X2 X3 X4 X5]; split; auto).
      assert (LM : length m4 = length (edge_bits g)) by apply SO4.
      set (h := gsize L 1 (candp a cur)).
      eapply wp_mono.
      + rewrite <- LL at 1.
        apply (wp_loopN_rel (S (length L)) _ (fun s n => let '(g', i, csz, cl') := s in
                 n = length L - i /\ i <= length L /\ exists m R X, g' = set_mem g1 m /\ ginv g1 D c0 h L i csz cl' m R X)
               (g1, 0, 1, cl) (length L) (gdone g1 mcs D c0 h)); [| lia |].
        * split; [lia|]. split; [lia|]. exists m4, (fun x => (x =? sp a cur) || false), (fun x => (x <? N) && candp a cur x).
          split; [reflexivity|]. unfold ginv. cbn [g1 set_mem edge_bits]. split; auto. split; auto. split; auto.
          split; [apply same_out_refl|]. split; [|split; [|split; [|split; [|split; [|split; [|split]]]]]].
          -- split; [rewrite Nat.eqb_refl; auto|]. intros p Hp E. rewrite orb_false_r in E. apply Nat.eqb_eq in E. auto.
          -- intros p q Hp Hq E1 E2 NE. rewrite orb_false_r in *. apply Nat.eqb_eq in E1, E2. congruence.
          -- rewrite (card_ext N _ (fun x => x =? sp a cur)) by (intros; apply orb_false_r).
             rewrite card_single. destruct (Nat.ltb_spec (sp a cur) N); [auto|lia].
          -- rewrite I5. apply card_ext. intros x Hx. destruct (Nat.ltb_spec x N); [auto|lia].
          -- lia.
          -- intros x Hx E. apply andb_prop in E. destruct E as [_ E]. split; auto.
             assert (NE : x <> sp a cur) by (intros ->; rewrite (candp_sp a nv HS Hself cur Hc) in E; discriminate).
             split; [apply Nat.eqb_neq in NE; rewrite NE; auto|]. intros y Hy Ey. rewrite orb_false_r in Ey. apply Nat.eqb_eq in Ey. subst y.
             rewrite (padj_sym a nv HC) by auto. apply (padj_root a nv HC); auto.
          -- intros k dk Hk. lia.
          -- cbn [skipn]. apply gsize_ext. intros d Id. apply In_nth_error in Id. destruct Id as [k Ek].
             destruct (L_ent g1 D c0 L HD He ltac:(cbn; lia) PL k d Ek) as (_ & Dd & _). destruct (Nat.ltb_spec (d_pos d) N); [auto|lia].
        * intros [[[g' i] csz] cl'] n (En & Hi & m & R & X & Eg & GI).
          rewrite <- LL.
          eapply wp_mono; [exact (greedy_spec g1 mcs D c0 h L (skipn (length L) nb4) SH1 HD He ltac:(cbn; lia) PL g' i csz cl' m R X Eg GI Hi)|].
          intros [[[[g'' i'] csz'] cl'']|x].
          -- intros (Hi' & m' & R' & X' & Eg' & GI'). exists (length L - i'). split; [lia|]. split; auto. split; [lia|].
             exists m', R', X'. auto.
          -- auto.
      + intros g' (P1 & P2 & P3 & P4 & P5 & P6). cbn [bind]. apply wp_ok. cbn [fst snd].
        split; [|split; [|split; [|split; [|split; [|split]]]]]; auto.
        * destruct P1 as [Q1 Q2 Q3 Q4 Q5]. unfold g1 in *. cbn [set_mem set_cur edge_bits search_cur CUR_MAX_SIZE CUR_MAX_LOC vertices] in *.
          split; cbn [set_cur set_mem edge_bits search_cur CUR_MAX_SIZE CUR_MAX_LOC vertices]; auto.
          -- rewrite Q2. auto.
          -- intros k Hk NB. rewrite Q4 by auto. apply SO4. lia.
          -- destruct Q5 as [(B5 & B6 & B7 & B8)|B]; [left|right; auto]. split; auto. split; auto. split; auto.
             intros k Hk. rewrite B8 by auto. pose proof (block_end a nv cur Hc). unfold in_block in Hk. apply SO4. lia.
        * intros k Hk. rewrite P4 by auto. apply SO4. lia.
        * rewrite app_length, skipn_length, LL. pose proof (card_bound N (candp a cur)). lia.
        * intros HB H0. apply P5. cbn [g1 set_mem CUR_MAX_SIZE]. lia.
        * rewrite P6. unfold hstep. rewrite <- I5. destruct (Nat.leb_spec cl (CUR_MAX_SIZE g)); [lia|].
          unfold h, L. rewrite I6. reflexivity.
  Qed.
End Heur.
