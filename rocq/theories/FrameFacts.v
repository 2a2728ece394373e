(** FrameFacts: the arena of one root search (result block, one candidate block per stack frame), and how the search
    primitives change it. Used by the stack search and by the enumerator. *)
From Verif Require Import Base MBits MUtils MGraph MStack MEnum SpecBits BaseFacts BitsFacts SetFacts FindFacts SortFacts RowFacts ConstructFacts CardFacts SearchBase.
Local Open Scope nat_scope.
Local Arguments Nat.sub : simpl never.
Local Arguments Nat.mul : simpl never.

Lemma members_length n P : length (members n P) = card n P. Proof. reflexivity. Qed.

Section Scan.
  Variables (a : pairs) (nv : nat).
  Hypothesis HC : gctx a nv.
  Variables (g : graph) (mcs : nat -> nat).
  Hypothesis SH : shape a nv g mcs.
  Variables (cur : nat).
  Hypothesis Hc : cur < nv.
  Notation N := (rlen a cur).
  Notation A := (padj a cur).
  Let HS := gc_sorted _ _ HC.
  Let Hself := gc_self _ _ HC.

  (** One adjacency test of the scan. *)
  Lemma scan_find j k mw s : j < N -> k < N ->
    s <= rlen a (nbr a cur j) -> (forall i, i < s -> nbr a (nbr a cur j) i < nbr a cur k) ->
    wp (binary_find (edge_list g) (wrap (Z.of_nat (velo (mkvert a mw (nbr a cur j))) + Z.of_nat s))
          (wrap (Z.of_nat (vN (mkvert a mw (nbr a cur j))) - Z.of_nat s)) (nbr a cur k))
       (fun r => fst r = A j k /\ exists s', wrap (Z.of_nat s + snd r) = Z.of_nat s' /\ s' <= rlen a (nbr a cur j)
                 /\ forall k', k <= k' < N -> forall i, i < s' -> nbr a (nbr a cur j) i < nbr a cur k').
  Proof.
    intros Hj Hk Hs Hlt. cbn [mkvert velo vN]. rewrite (sh_el _ _ _ _ SH).
    eapply wp_mono; [apply (nb_find a nv HC); auto; apply (nbr_lt a nv HC); auto|].
    intros r (E & s' & E1 & E2 & E3). split; [exact E|]. exists s'. split; auto. split; auto.
    intros k' Hk' i Hi. specialize (E3 i Hi).
    destruct (Nat.eq_dec k k') as [<-|]; auto. pose proof (nbr_mono a nv HC cur k k' ltac:(lia)). lia.
  Qed.

  Lemma sd_scan_spec cp S j csz mv mw nx : j < N -> rep (edge_bits g) cp N S ->
    (forall x, x < N -> S x = true -> j < x) ->
    ((j + 1 <= nx < N /\ S nx = true /\ forall x, j + 1 <= x < nx -> S x = false)
      \/ (nx = N /\ forall x, j + 1 <= x < N -> S x = false)) ->
    wp (sd_scan g (mkvert a mv cur) (mkvert a mw (nbr a cur j)) (refer_from cp N) (card N S) csz nx (card N S + 1 + csz))
       (fun r => (CUR_MAX_SIZE g < snd r /\ snd r = card N (fun x => S x && A j x) + csz + 1
                  /\ fst r = members N (fun x => S x && negb (A j x)))
              \/ (snd r <= CUR_MAX_SIZE g /\ card N (fun x => S x && A j x) + csz + 1 <= CUR_MAX_SIZE g)).
  Proof.
    intros Hj HR Hgt Hnx. set (e := nbr a cur j) in *. set (B := fun x => S x && negb (A j x)).
    assert (He : e < nv) by (apply (nbr_lt a nv HC); auto).
    destruct (sp_spec a nv HS Hself e He) as [SP1 SP2].
    assert (Hnext : forall i x, j < i -> ((i <= x < N /\ S x = true /\ forall y, i <= y < x -> S y = false)
        \/ (x = N /\ forall y, i <= y < N -> S y = false)) -> i <= N -> i <= x <= N /\ (x < N -> S x = true) /\ forall y, i <= y < x -> S y = false).
    { intros i x Hi [(H1 & H2 & H3)|(H1 & H2)] HiN; [repeat split; auto; lia|]. subst x. repeat split; auto; lia. }
    unfold sd_scan. 
    apply (wp_loopN _ _ (fun '(k, start, rem, pot) => j < k <= N /\ (k < N -> S k = true) /\ rem = members k B
        /\ pot = (card N S - length rem) + csz + 1
        /\ exists s, start = Z.of_nat s /\ s <= rlen a e /\ (forall k', k <= k' < N -> forall i, i < s -> nbr a e i < nbr a cur k'))
        (fun '(k, start, rem, pot) => N - k)).
    - destruct (Hnext (j + 1) nx ltac:(lia) Hnx ltac:(lia)) as (K1 & K2 & K3). repeat split; auto; try lia.
      + symmetry. transitivity (members 0 B); [|reflexivity]. apply members_prefix; [lia|].
        intros i Hi. unfold B. destruct (S i) eqn:ES; auto. destruct (Nat.lt_ge_cases i (j + 1)).
        * pose proof (Hgt i ltac:(lia) ES). lia.
        * rewrite K3 in ES by lia. discriminate.
      + cbn [length]. lia.
      + exists (sp a e). cbn [mkvert vspos]. repeat split; auto; [lia|].
        intros k' Hk' i Hi. apply (nbr_below_sp a nv HC); auto.
        pose proof (nbr_mono a nv HC cur j k' ltac:(lia)). unfold e in *. lia.
    - cbn [mkvert vN]. lia.
    - intros [[[k start] rem] pot] (I1 & I2 & I3 & I4 & s & I5 & I6 & I7). cbn [mkvert vN velo].
      destruct (Nat.ltb_spec k N) as [Hk|Hk]; cbn [andb].
      destruct (Nat.ltb_spec (CUR_MAX_SIZE g) pot) as [Hp|Hp].
      + rewrite (sh_el _ _ _ _ SH), (rd_el a nv HC) by auto. cbn [bind]. apply wp_bind.
        rewrite I5. rewrite <- (sh_el _ _ _ _ SH).
        change (wrap (Z.of_nat (off a e) + Z.of_nat s)) with (wrap (Z.of_nat (velo (mkvert a mw e)) + Z.of_nat s)).
        change (wrap (Z.of_nat (rlen a e) - Z.of_nat s)) with (wrap (Z.of_nat (vN (mkvert a mw e)) - Z.of_nat s)).
        eapply wp_mono; [apply scan_find; auto; intros; apply I7; auto; lia|].
        intros [fnd ans] (F & s' & F1 & F2 & F3). cbn [fst snd] in F, F1. apply wp_bind.
        eapply wp_mono; [eapply bits_next_spec; eauto; apply (sh_mem _ _ _ _ SH)|].
        intros k' Hk'. destruct (Hnext (k + 1) k' ltac:(lia) Hk' ltac:(lia)) as (K1 & K2 & K3). apply wp_ok.
        assert (ER : (if fnd then rem else rem ++ [k]) = members k' B).
        { rewrite (members_prefix (Datatypes.S k) k' B); [|lia|].
          - rewrite members_S, <- I3, F. unfold B. rewrite (I2 Hk). destruct (A j k); cbn [andb negb]; [rewrite app_nil_r|]; auto.
          - intros i Hi. unfold B. rewrite K3 by lia. auto. }
        rewrite ER. split; [|lia]. repeat split; auto; try lia.
        exists s'. split; auto. split; auto. intros k'' Hk''. apply F3. lia.
      + apply wp_ok. right. cbn [fst snd]. split; auto.
        pose proof (card_split N S (A j)) as CS.
        assert (length rem <= card N B) by (rewrite I3, members_length; apply card_mono; lia).
        unfold B in *. lia.
      + replace k with N in * by lia. apply wp_ok. cbn [fst snd]. rewrite I3 in I4. rewrite members_length in I4.
        pose proof (card_split N S (A j)) as CS. fold B in CS.
        destruct (Nat.lt_ge_cases (CUR_MAX_SIZE g) pot); [left|right]; repeat split; auto; lia.
  Qed.

  Lemma en_scan_spec cp S j csz mv mw required : j < N -> rep (edge_bits g) cp N S ->
    (forall x, x < N -> S x = true -> j < x) ->
    wp (en_scan g (mkvert a mv cur) (mkvert a mw (nbr a cur j)) (refer_from cp N) required (card N S) csz j (card N S + 1 + csz))
       (fun r => (required <= snd r /\ snd r = card N (fun x => S x && A j x) + csz + 1
                  /\ fst r = members N (fun x => S x && negb (A j x)))
              \/ (snd r < required /\ card N (fun x => S x && A j x) + csz + 1 < required)).
  Proof.
    intros Hj HR Hgt. set (e := nbr a cur j) in *. set (B := fun x => S x && negb (A j x)).
    assert (He : e < nv) by (apply (nbr_lt a nv HC); auto).
    destruct (sp_spec a nv HS Hself e He) as [SP1 SP2].
    unfold en_scan.
    apply (wp_loopN _ _ (fun '(k, start, rem, pot) => j < k <= N /\ rem = members k B
        /\ pot = (card N S - length rem) + csz + 1
        /\ exists s, start = Z.of_nat s /\ s <= rlen a e /\ (forall k', k <= k' < N -> forall i, i < s -> nbr a e i < nbr a cur k'))
        (fun '(k, start, rem, pot) => N - k)).
    - repeat split; auto; try lia.
      + symmetry. transitivity (members 0 B); [|reflexivity]. apply members_prefix; [lia|].
        intros i Hi. unfold B. destruct (S i) eqn:ES; auto. pose proof (Hgt i ltac:(lia) ES). lia.
      + cbn [length]. lia.
      + exists (sp a e + 1). cbn [mkvert vspos]. repeat split; auto; [lia|lia|].
        intros k' Hk' i Hi. apply (nbr_upto_sp a nv HC); auto.
        pose proof (nbr_mono a nv HC cur j k' ltac:(lia)). unfold e in *. lia.
    - cbn [mkvert vN]. lia.
    - intros [[[k start] rem] pot] (I1 & I3 & I4 & s & I5 & I6 & I7). cbn [mkvert vN velo].
      destruct (Nat.ltb_spec k N) as [Hk|Hk]; cbn [andb].
      destruct (Nat.leb_spec required pot) as [Hp|Hp].
      + rewrite (bits_get_spec (edge_bits g) cp N S) by auto. cbn [bind]. destruct (S k) eqn:ESk; cbn [negb].
        * rewrite (sh_el _ _ _ _ SH), (rd_el a nv HC) by auto. cbn [bind]. apply wp_bind.
          rewrite I5. rewrite <- (sh_el _ _ _ _ SH).
          change (wrap (Z.of_nat (off a e) + Z.of_nat s)) with (wrap (Z.of_nat (velo (mkvert a mw e)) + Z.of_nat s)).
          change (wrap (Z.of_nat (rlen a e) - Z.of_nat s)) with (wrap (Z.of_nat (vN (mkvert a mw e)) - Z.of_nat s)).
          eapply wp_mono; [apply scan_find; auto; intros; apply I7; auto; lia|].
          intros [fnd ans] (F & s' & F1 & F2 & F3). cbn [fst snd] in F, F1. apply wp_ok.
          assert (ER : (if fnd then rem else rem ++ [k]) = members (k + 1) B).
          { rewrite Nat.add_1_r, members_S, <- I3, F. unfold B. rewrite ESk. destruct (A j k); cbn [andb negb]; [rewrite app_nil_r|]; auto. }
          rewrite ER. split; [|lia]. repeat split; auto; try lia.
          exists s'. split; auto. split; auto. intros k'' Hk''. apply F3. lia.
        * apply wp_ok. split; [|lia]. repeat split; auto; try lia.
          -- rewrite Nat.add_1_r, members_S, <- I3. unfold B. rewrite ESk. cbn [andb]. rewrite app_nil_r. auto.
          -- exists s. split; auto. split; auto. intros k'' Hk''. apply I7. lia.
      + apply wp_ok. right. cbn [fst snd]. split; auto.
        pose proof (card_split N S (A j)) as CS.
        assert (length rem <= card N B) by (rewrite I3, members_length; apply card_mono; lia).
        unfold B in *. lia.
      + replace k with N in * by lia. apply wp_ok. cbn [fst snd]. rewrite I3 in I4. rewrite members_length in I4.
        pose proof (card_split N S (A j)) as CS. fold B in CS.
        destruct (Nat.le_gt_cases required pot); [left|right]; repeat split; auto; lia.
  Qed.
End Scan.
