(** FrameInv: the stack of search states as a list of (position, candidate set) frames. *)
From Verif Require Import Base MBits MUtils MGraph SpecBits BaseFacts BitsFacts SetFacts SortFacts RowFacts ConstructFacts CardFacts SearchBase FrameFacts.
Local Open Scope nat_scope.
Local Arguments Nat.sub : simpl never.
Local Arguments Nat.mul : simpl never.

Notation frame := (nat * (nat -> bool))%type.
Definition minus (S : nat -> bool) (j : nat) : nat -> bool := fun x => negb (x =? j) && S x.

Lemma set_mem_cur g m : set_mem g m = set_cur (set_mem g m) (search_cur g). Proof. reflexivity. Qed.

Section Frames.
  Variables (a : pairs) (nv cur c0 : nat) (lr : bool).
  Hypothesis HC : gctx a nv.
  Hypothesis Hc : cur < nv.
  (** The candidates of the root, and a bound on the cliques rooted there *)
  Variables (cp : nat -> bool) (bd : nat).
  Hypothesis Hcp : cp (sp a cur) = false.
  Hypothesis Hbd : forall K, rooted_by cp a cur K -> pclique a cur K -> card (rlen a cur) K <= bd.
  Notation N := (rlen a cur).
  Notation w := (words (rlen a cur)).
  Notation A := (padj a cur).
  Let HS := gc_sorted _ _ HC.
  Let Hself := gc_self _ _ HC.

  Definition rp : nat := if lr then c0 else c0 + w.
  Definition blk (d : nat) : nat := if (d =? 0) && negb lr then c0 else c0 + (d + 1) * w.
  Definition ids (fs : list frame) : list nat := map fst fs.
  Definition inter (S : nat -> bool) (j : nat) : nat -> bool := fun x => S x && A j x.

  Lemma w_pos : 0 < w.
  Proof. apply words_pos. apply (len_pos a nv HS Hself cur Hc). Qed.

  Lemma mul_step d d' : d < d' -> d * w + w <= d' * w.
  Proof. intros H. replace d' with (S d + (d' - S d)) by lia. rewrite Nat.mul_add_distr_r. pose proof (Nat.mul_succ_l d w). lia. Qed.

  Lemma blk_disj d d' : d <> d' -> blk d + w <= blk d' \/ blk d' + w <= blk d.
  Proof.
    intros H. unfold blk. pose proof w_pos as W.
    pose proof (mul_step d d'). pose proof (mul_step d' d). pose proof (mul_step 0 d). pose proof (mul_step 0 d').
    assert (E : (d + 1) * w = d * w + w) by (rewrite Nat.mul_add_distr_r; lia).
    assert (E' : (d' + 1) * w = d' * w + w) by (rewrite Nat.mul_add_distr_r; lia).
    rewrite E, E'. destruct (Nat.eqb_spec d 0), (Nat.eqb_spec d' 0), lr; cbn [andb negb]; lia.
  Qed.

  Lemma blk_rp d : blk d + w <= rp \/ rp + w <= blk d.
  Proof.
    unfold blk, rp. pose proof w_pos as W.
    assert (E : (d + 1) * w = d * w + w) by (rewrite Nat.mul_add_distr_r; lia).
    destruct (Nat.eqb_spec d 0), lr; cbn [andb negb]; subst; try lia. pose proof (mul_step 0 d). lia.
  Qed.

  Lemma blk_ge d : c0 <= blk d. Proof. unfold blk. destruct (_ && _); lia. Qed.
  Lemma rp_ge : c0 <= rp. Proof. unfold rp. destruct lr; lia. Qed.
  Lemma rp_le : rp + w <= c0 + 2 * w. Proof. unfold rp. destruct lr; lia. Qed.
  Lemma blk_end d : blk d + w <= c0 + (d + 2) * w.
  Proof.
    unfold blk. replace (d + 2) with (S (d + 1)) by lia. rewrite Nat.mul_succ_l. destruct (_ && _); lia.
  Qed.
  Lemma blk_S d : blk (S d) = c0 + (S d + 1) * w. Proof. reflexivity. Qed.

  Fixpoint finv (m : list BinNums.N) (fs : list frame) (sts : list sstate) : Prop :=
    match fs, sts with
    | [], [] => True
    | (id, X) :: fs', st :: sts' =>
        (s_id st = id /\ s_res st = refer_from rp N /\ s_cand st = refer_from (blk (length fs')) N
         /\ rep m (blk (length fs')) N X /\ (forall x, x < N -> X x = true -> s_start st <= x))
        /\ (id < N /\ (fs' = [] -> id = sp a cur) /\ (fs' <> [] -> cp id = true) /\ ~ In id (ids fs')
            /\ (forall p, In p (ids fs') -> A p id = true))
        /\ (forall x, x < N -> X x = true -> cp x = true /\ ~ In x (id :: ids fs')
              /\ forall p, In p (id :: ids fs') -> A p x = true)
        /\ finv m fs' sts'
    | _, _ => False
    end.

  Lemma finv_len m fs sts : finv m fs sts -> length sts = length fs.
  Proof.
    revert sts; induction fs as [|[id S] fs IH]; intros [|st sts] H; simpl in *; try contradiction; auto.
    destruct H as (_ & _ & _ & H). f_equal. auto.
  Qed.

  Lemma finv_frame m m' fs sts : finv m fs sts -> length m' = length m ->
    (forall d, d < length fs -> forall k, blk d <= k < blk d + w -> nth k m' 0%N = nth k m 0%N) -> finv m' fs sts.
  Proof.
    revert sts; induction fs as [|[id S] fs IH]; intros [|st sts] H HL HM; simpl in *; try contradiction; auto.
    destruct H as ((F1 & F2 & F3 & F4 & F5) & F6 & F7 & F8). split; [|split; [exact F6|split; [exact F7|apply IH; auto; intros d Hd; apply HM; lia]]].
    split; [|split; [|split; [|split]]]; auto. destruct F4 as [F4 F4']. split; [lia|].
    intros i Hi. rewrite <- F4' by auto. unfold wbit. rewrite (HM (length fs)); auto.
    pose proof (words_lt64 _ i Hi). lia.
  Qed.

  Lemma finv_ids m fs sts : finv m fs sts ->
    NoDup (ids fs) /\ (forall x, In x (ids fs) -> x < N /\ (x = sp a cur \/ cp x = true))
    /\ (forall x y, In x (ids fs) -> In y (ids fs) -> x <> y -> A x y = true)
    /\ (fs <> [] -> In (sp a cur) (ids fs)).
  Proof.
    revert sts; induction fs as [|[id S] fs IH]; intros [|st sts] H; simpl in *; try contradiction.
    - split; [constructor|]. repeat split; try tauto; contradiction.
    - destruct H as (_ & (G1 & G2 & G3 & G4 & G5) & _ & H). destruct (IH sts H) as (I1 & I2 & I3 & I4).
      split; [constructor; auto|]. split; [|split].
      + intros x [<-|I]; [|apply I2; auto]. split; auto. destruct fs; [left; auto|right; apply G3; discriminate].
      + intros x y [<-|Ix] [<-|Iy] NE; try congruence; auto.
        rewrite (padj_sym a nv HC); auto. apply I2; auto.
      + intros _. destruct fs as [|f fs]; [left; auto|right; apply I4; discriminate].
  Qed.

  Lemma finv_depth m fs sts : finv m fs sts -> length fs <= bd.
  Proof.
    intros H. destruct (finv_ids _ _ _ H) as (I1 & I2 & I3 & I4). destruct fs as [|f fs]; [simpl; lia|].
    replace (length (f :: fs)) with (length (ids (f :: fs))) by apply map_length.
    rewrite <- (card_list N (ids (f :: fs))); [|auto|intros x I; apply I2; auto]. apply Hbd.
    - split; [apply inb_in, I4; discriminate|]. intros p Hp Ep. apply inb_in in Ep. apply I2. auto.
    - intros p q Hp Hq Ep Eq NE. apply inb_in in Ep, Eq. auto.
  Qed.

  (** The clique of the current path. *)
  Lemma path_clique m id S fs sts j : finv m ((id, S) :: fs) sts -> j < N -> S j = true ->
    let K := fun x => inb x (j :: id :: ids fs) in
    rooted_by cp a cur K /\ pclique a cur K /\ card N K = length fs + 2.
  Proof.
    intros H Hj Sj K. destruct (finv_ids _ _ _ H) as (I1 & I2 & I3 & I4).
    destruct sts as [|st sts]; [destruct H|]. destruct H as (_ & _ & F & _). destruct (F j Hj Sj) as (F1 & F2 & F3).
    change (map fst ((id, S) :: fs)) with (id :: ids fs) in *. change (ids ((id, S) :: fs)) with (id :: ids fs) in *.
    split; [|split].
    - split.
      + apply inb_in. right. apply I4. discriminate.
      + intros p Hp Kp. apply inb_in in Kp. destruct Kp as [<-|Ip]; auto. apply I2 in Ip. tauto.
    - intros p q Hp Hq Kp Kq NE. apply inb_in in Kp, Kq. destruct Kp as [<-|Ip], Kq as [<-|Iq]; auto; try congruence.
      rewrite (padj_sym a nv HC) by auto. auto.
    - unfold K. rewrite card_list.
      + simpl. unfold ids. rewrite map_length. lia.
      + constructor; auto.
      + intros x [<-|I]; auto. apply I2; auto.
  Qed.

  (** ** The arena during the search *)
  Record arena (m : list BinNums.N) (sc : nat) (fs : list frame) (sts : list sstate) : Prop := {
    ar_ok : memok m;
    ar_sc : sc = c0 + (length fs + 1) * w;
    ar_zero : zero_from m sc;
    ar_res : rep m rp N (fun x => inb x (ids fs));
    ar_fr : finv m fs sts;
    ar_space : c0 + (bd + 1) * w <= length m
  }.

  Lemma arena_upd m m' sc fs sts : fs <> [] -> arena m sc fs sts -> memok m' -> length m' = length m ->
    rep m' rp N (fun x => inb x (ids fs)) ->
    (forall k, c0 <= k -> ~ (rp <= k < rp + w) -> nth k m' 0%N = nth k m 0%N) -> arena m' sc fs sts.
  Proof.
    intros NE [R1 R2 R3 R4 R5 R6] M1 M2 M3 M4. split; auto.
    - intros k Hk. rewrite M4; [apply R3; auto|lia|]. pose proof rp_le.
      destruct fs; [congruence|]. cbn [length] in R2.
      assert (c0 + 2 * w <= sc) by (rewrite R2; apply Nat.add_le_mono_l, Nat.mul_le_mono_r; lia). lia.
    - eapply finv_frame; eauto. intros d Hd k Hk. apply M4; [pose proof (blk_ge d); lia|].
      pose proof (blk_rp d). lia.
    - lia.
  Qed.

  (** Removing j from the candidates of the top frame. *)
  Lemma arena_minus m sc id S fs st sts j : arena m sc ((id, S) :: fs) (st :: sts) -> j < N ->
    wp (bits_reset m (s_cand st) j)
       (fun m' => same_out m m' (blk (length fs)) w /\ memok m' /\ rep m' (blk (length fs)) N (minus S j)
         /\ forall nx, (forall x, x < N -> S x = true -> x <> j -> nx <= x) ->
            arena m' sc ((id, minus S j) :: fs) (set_start st nx :: sts)).
  Proof.
    intros [R1 R2 R3 R4 R5 R6] Hj. destruct R5 as ((F1 & F2 & F3 & F4 & F5) & F6 & F7 & F8).
    rewrite F3. eapply wp_mono; [apply (bits_reset_spec m (blk (length fs)) N S _ j); auto|].
    intros m' (M1 & M2 & M3). split; auto. split; auto. split; auto.
    intros nx Hnx. pose proof (blk_rp (length fs)) as BR. pose proof M3 as [M3l M3'].
    split; auto.
    - intros k Hk. cbn [length] in R2. pose proof (blk_end (length fs)).
      rewrite M3'; [apply R3; auto|]. replace (length fs + 2) with (Datatypes.S (length fs) + 1) in * by lia. lia.
    - eapply rep_frame; eauto. lia.
    - split; [|split; [|split]].
      + cbn [set_start s_id s_res s_cand s_start]. repeat split; auto; try apply M2.
        intros x Hx Ex. unfold minus in Ex. apply andb_prop in Ex. destruct Ex as [E1 E2].
        apply Hnx; auto. destruct (Nat.eqb_spec x j); [discriminate|auto].
      + auto.
      + intros x Hx Ex. unfold minus in Ex. apply andb_prop in Ex. apply F7; tauto.
      + eapply finv_frame; eauto. intros d Hd k Hk. apply M3'. pose proof (blk_disj d (length fs) ltac:(lia)). lia.
    - lia.
  Qed.

  (** Changing only start_at of the top frame. *)
  Lemma arena_start m sc id S fs st sts k : arena m sc ((id, S) :: fs) (st :: sts) ->
    (forall x, x < N -> S x = true -> k <= x) -> arena m sc ((id, S) :: fs) (set_start st k :: sts).
  Proof.
    intros [R1 R2 R3 R4 R5 R6] Hk. split; auto. destruct R5 as ((F1 & F2 & F3 & F4 & F5) & F6 & F7 & F8).
    split; [|split; [|split]]; auto.
  Qed.

  Lemma foldM_reset l : forall m off P, memok m -> rep m off N P -> (forall x, In x l -> x < N) ->
    wp (foldM (fun k m => bits_reset m (refer_from off N) k) l m)
       (fun m' => memok m' /\ rep m' off N (fun x => P x && negb (inb x l)) /\ same_out m m' off w).
  Proof.
    induction l as [|y l IH]; intros m off P M1 M2 HL; cbn [foldM].
    - apply wp_ok. split; auto. split; [|apply same_out_refl]. eapply rep_ext; eauto. intros i Hi. simpl. rewrite andb_true_r. auto.
    - apply wp_bind. eapply wp_mono; [apply (bits_reset_spec m off N P _ y); auto; apply HL; left; auto|].
      intros m1 (K1 & K2 & K3). eapply wp_mono; [apply (IH m1 off _ K1 K2); intros; apply HL; right; auto|].
      intros m2 (J1 & J2 & J3). split; auto. split; [|eapply same_out_trans; eauto].
      eapply rep_ext; [exact J2|]. intros i Hi. simpl. change (existsb (Nat.eqb i) l) with (inb i l).
      destruct (i =? y), (P i), (inb i l); auto.
  Qed.

  (** Pushing the state of candidate j. *)
  Lemma arena_push g id S fs st sts j rem : let m := edge_bits g in
    arena m (search_cur g) ((id, S) :: fs) (st :: sts) -> j < N ->
    cp j = true -> ~ In j (id :: ids fs) -> (forall p, In p (id :: ids fs) -> A p j = true) ->
    S j = false -> (forall x, x < N -> S x = true -> j <= x) ->
    length fs + 2 <= bd ->
    rem = members N (fun x => S x && negb (A j x)) ->
    wp (push_state g w st j rem)
       (fun r => exists m', fst r = set_cur (set_mem g m') (search_cur g + w)
         /\ length m' = length m /\ (forall k, k < c0 -> nth k m' 0%N = nth k m 0%N)
         /\ arena m' (search_cur g + w) ((j, inter S j) :: (id, S) :: fs) (snd r :: st :: sts)).
  Proof.
    intros m HA Hj C1 C2 C3 C4 C5 HD HR. pose proof HA as [R1 R2 R3 R4 R5 R6]. pose proof w_pos as W.
    destruct R5 as ((F1 & F2 & F3 & F4 & F5) & F6 & F7 & F8).
    assert (SP : search_cur g + w <= length m).
    { rewrite R2. cbn [length]. etransitivity; [|exact R6]. rewrite <- Nat.add_assoc. apply Nat.add_le_mono_l.
      replace ((Datatypes.S (length fs) + 1) * w + w) with ((length fs + 2 + 1) * w).
      - apply Nat.mul_le_mono_r. lia.
      - replace (length fs + 2 + 1) with (Datatypes.S (Datatypes.S (length fs) + 1)) by lia. rewrite Nat.mul_succ_l. lia. }
    assert (EP : search_cur g = blk (Datatypes.S (length fs))) by (rewrite R2, blk_S; reflexivity).
    pose proof (blk_rp (Datatypes.S (length fs))) as BR. pose proof (blk_disj (Datatypes.S (length fs)) (length fs) ltac:(lia)) as BD.
    rewrite <- EP in BR, BD.
    unfold push_state. rewrite load_memory_ok by (fold m; lia). cbn [bind set_cur edge_bits]. fold m.
    rewrite F3. apply wp_bind. eapply wp_mono; [apply (bits_copy_from_spec m (blk (length fs)) N S (search_cur g)); auto|].
    intros [m1 cand] (K1 & K2 & K3 & K4). cbn [fst snd] in *. subst cand. rewrite F2.
    assert (K5 : rep m1 rp N (fun x => inb x (ids ((id, S) :: fs)))) by (eapply rep_frame; eauto; lia).
    apply wp_bind. eapply wp_mono; [apply (bits_set_spec m1 rp N _ _ j K2 K5); auto|].
    intros m2 (L1 & L2 & L3).
    assert (L4 : rep m2 (search_cur g) N S) by (eapply rep_frame; eauto; lia).
    apply wp_bind. eapply wp_mono; [apply (foldM_reset rem m2 (search_cur g) S L1 L4)|].
    { intros x Ix. rewrite HR in Ix. apply filter_In in Ix. destruct Ix as [Ix _]. apply in_seq in Ix. lia. }
    intros m3 (J1 & J2 & J3). apply wp_ok. exists m3. cbn [fst snd]. split; [reflexivity|].
    assert (LM : length m3 = length m) by (destruct J3, L3, K4; lia). split; auto.
    assert (OUT : forall k, ~ (rp <= k < rp + w) -> ~ (search_cur g <= k < search_cur g + w) -> nth k m3 0%N = nth k m 0%N).
    { intros k H1 H2. destruct J3 as [_ J3], L3 as [_ L3], K4 as [_ K4]. rewrite J3, L3, K4; auto. }
    pose proof rp_ge as RG. pose proof rp_le as RL.
    assert (SC2 : c0 + 2 * w <= search_cur g) by (rewrite R2; cbn [length]; apply Nat.add_le_mono_l, Nat.mul_le_mono_r; lia).
    split; [intros k Hk; apply OUT; lia|].
    split; auto.
    - rewrite R2. cbn [length]. replace (Datatypes.S (Datatypes.S (length fs)) + 1) with (Datatypes.S (Datatypes.S (length fs) + 1)) by lia.
      rewrite Nat.mul_succ_l. lia.
    - intros k Hk. rewrite OUT by lia. apply R3. lia.
    - eapply rep_frame; [|exact J3|lia]. exact L2.
    - split; [|split; [|split]].
      + cbn [s_id s_res s_cand s_start length]. rewrite <- EP. repeat split; auto; try apply J2.
        * intros i Hi. destruct J2 as [_ J2]. rewrite J2 by auto. destruct (Nat.ltb_spec i N); auto. cbn [andb].
          unfold inter. rewrite HR. destruct (inb i _) eqn:EI.
          -- apply inb_in in EI. apply filter_In in EI. destruct EI as [_ EI]. destruct (S i), (A j i); auto.
          -- apply inb_not in EI. destruct (S i) eqn:ES, (A j i) eqn:EA; auto. exfalso. apply EI. apply filter_In.
             split; [apply in_seq; lia|]. rewrite ES, EA. auto.
        * intros x Hx Ex. unfold inter in Ex. apply andb_prop in Ex. apply C5; tauto.
      + repeat split; auto. discriminate.
      + intros x Hx Ex. unfold inter in Ex. apply andb_prop in Ex. destruct Ex as [E1 E2].
        destruct (F7 x Hx E1) as (G1 & G2 & G3). split; auto. split.
        * intros [<-|I]; [congruence|]. apply G2. exact I.
        * intros p [<-|I]; auto.
      + change (finv m3 ((id, S) :: fs) (st :: sts)).
        apply (finv_frame m); auto; [split; [|split; [|split]]; auto|].
        intros d Hd k Hk. cbn [length] in Hd. apply OUT.
        * pose proof (blk_rp d). lia.
        * rewrite EP. pose proof (blk_disj d (Datatypes.S (length fs)) ltac:(lia)). lia.
    - lia.
  Qed.

  (** Popping an exhausted frame. *)
  Lemma arena_pop g id S fs st sts : let m := edge_bits g in
    arena m (search_cur g) ((id, S) :: fs) (st :: sts) -> (forall x, x < N -> S x = false) ->
    wp (g <- clear_memory g w;; m <- bits_reset (edge_bits g) (s_res st) (s_id st);; Ok (set_mem g m))
       (fun g' => exists m', g' = set_cur (set_mem g m') (search_cur g - w)
         /\ length m' = length m /\ (forall k, k < c0 -> nth k m' 0%N = nth k m 0%N)
         /\ arena m' (search_cur g - w) fs sts).
  Proof.
    intros m HA HE. pose proof HA as [R1 R2 R3 R4 R5 R6]. pose proof w_pos as W.
    pose proof (finv_depth _ _ _ R5) as HD. cbn [length] in HD, R2.
    destruct R5 as ((F1 & F2 & F3 & F4 & F5) & F6 & F7 & F8).
    pose proof rp_ge as RG. pose proof rp_le as RL.
    assert (SC : search_cur g = c0 + (length fs + 1) * w + w).
    { rewrite R2. replace (Datatypes.S (length fs) + 1) with (Datatypes.S (length fs + 1)) by lia. rewrite Nat.mul_succ_l. lia. }
    assert (SL : search_cur g <= length m).
    { rewrite R2. etransitivity; [|exact R6]. apply Nat.add_le_mono_l, Nat.mul_le_mono_r. lia. }
    apply wp_bind. eapply wp_mono; [apply clear_memory_spec; fold m; auto; lia|].
    intros g1 (m1 & -> & K1 & K2 & K3). cbn [set_cur set_mem edge_bits].
    assert (CL : forall k, search_cur g - w <= k -> nth k m1 0%N = 0%N).
    { intros k Hk. destruct (Nat.lt_ge_cases k (search_cur g)); [apply K3; lia|]. destruct K2 as [_ K2]. rewrite K2 by lia. apply R3. auto. }
    assert (K4 : exists P, rep m1 rp N P /\ forall x, x < N -> negb (x =? id) && P x = inb x (ids fs)).
    { destruct fs as [|f fs'].
      - destruct lr eqn:ELR.
        + exists (fun x => inb x [id]). split.
          * eapply rep_frame; eauto. unfold rp in *. rewrite ELR in *. cbn [length] in *. lia.
          * intros x Hx. simpl. destruct (x =? id); auto.
        + exists (fun _ => false). split.
          * apply rep_zero; [destruct K2 as [K2l _]; fold m in K2l; unfold rp in *; rewrite ELR in *; lia|].
            intros k Hk. apply CL. unfold rp in *. rewrite ELR in *. cbn [length] in *. lia.
          * intros x Hx. rewrite andb_false_r. auto.
      - exists (fun x => inb x (ids ((id, S) :: f :: fs'))). split.
        + eapply rep_frame; eauto. cbn [length] in *.
          assert (2 * w <= (Datatypes.S (length fs') + 1) * w) by (apply Nat.mul_le_mono_r; lia). lia.
        + intros x Hx. destruct F6 as (_ & _ & _ & F6 & _). change (ids ((id, S) :: f :: fs')) with (id :: ids (f :: fs')).
          change (inb x (id :: ids (f :: fs'))) with ((x =? id) || inb x (ids (f :: fs'))).
          destruct (Nat.eqb_spec x id) as [->|]; auto. cbn [negb andb]. symmetry. apply inb_not. auto. }
    destruct K4 as (P & K4 & K5).
    rewrite F1, F2. apply wp_bind. eapply wp_mono; [apply (bits_reset_spec m1 rp N P _ id K1 K4); auto; apply F6|].
    intros m2 (L1 & L2 & L3). apply wp_ok. exists m2. split; [reflexivity|].
    assert (LM : length m2 = length m) by (destruct K2 as [K2l _], L3; fold m in K2l; lia). split; auto.
    split. { intros k Hk. destruct L3 as [_ L3], K2 as [_ K2]. rewrite L3, K2; auto; lia. }
    split; auto.
    - lia.
    - intros k Hk. destruct (Nat.lt_ge_cases k rp) as [|HG1]; [|destruct (Nat.lt_ge_cases k (rp + w)) as [HG2|]].
      + destruct L3 as [_ L3]. rewrite L3 by lia. apply CL. auto.
      + assert (fs = []) as ->.
        { destruct fs; auto. cbn [length] in SC. assert (2 * w <= (Datatypes.S (length fs) + 1) * w) by (apply Nat.mul_le_mono_r; lia). lia. }
        apply (rep_zero_inv m2 rp N); auto. eapply rep_ext; [exact L2|]. intros i Hi. cbv beta. rewrite K5 by auto. reflexivity.
      + destruct L3 as [_ L3]. rewrite L3 by lia. apply CL. auto.
    - eapply rep_ext; [exact L2|]. auto.
    - apply (finv_frame m); auto. intros d Hd k Hk. destruct L3 as [_ L3], K2 as [_ K2].
      pose proof (blk_rp d). rewrite L3 by lia. rewrite K2; auto.
      pose proof (blk_disj d (length fs) ltac:(lia)).
      assert (blk (length fs) = search_cur g - w) as <-; [|lia].
      unfold blk. destruct fs; [cbn [length] in Hd; lia|]. cbn [length Nat.eqb andb]. cbn [length] in SC. lia.
    - lia.
  Qed.

  (** After the last frame is gone, or on an early stop, the rest of the arena is released. *)
  Lemma arena_release g fs sts : let m := edge_bits g in
    arena m (search_cur g) fs sts ->
    wp (g <- (match sts with [] => Ok g | _ => clear_memory g (w * length sts) end);; clear_memory g w)
       (fun g' => exists m', g' = set_cur (set_mem g m') c0 /\ length m' = length m /\ memok m'
         /\ (forall k, k < c0 -> nth k m' 0%N = nth k m 0%N) /\ zero_from m' c0).
  Proof.
    intros m [R1 R2 R3 R4 R5 R6]. pose proof w_pos as W. pose proof (finv_len _ _ _ R5) as HL. pose proof (finv_depth _ _ _ R5) as HD.
    assert (SC : search_cur g = c0 + w + w * length sts).
    { rewrite R2, HL, Nat.mul_add_distr_r. rewrite (Nat.mul_comm w). lia. }
    assert (SL : search_cur g <= length m).
    { rewrite R2. etransitivity; [|exact R6]. apply Nat.add_le_mono_l, Nat.mul_le_mono_r. lia. }
    apply wp_bind.
    apply (wp_mono _ (fun g1 => exists m1, g1 = set_cur (set_mem g m1) (c0 + w) /\ length m1 = length m /\ memok m1
       /\ (forall k, k < c0 + w -> nth k m1 0%N = nth k m 0%N) /\ zero_from m1 (c0 + w))).
    - destruct sts as [|st sts].
      + apply wp_ok. exists m. cbn [length] in SC. rewrite Nat.mul_0_r, Nat.add_0_r in SC. split; [rewrite <- SC; destruct g; reflexivity|].
        split; auto. split; auto. split; auto. rewrite <- SC. auto.
      + set (q := w * length (st :: sts)) in *.
        eapply wp_mono; [apply clear_memory_spec; fold m; auto; lia|].
        intros g1 (m1 & -> & K1 & K2 & K3). fold m in K2. exists m1. replace (search_cur g - q) with (c0 + w) in * by lia.
        split; auto. split; [apply K2|]. split; auto. split.
        * intros k Hk. apply K2. lia.
        * intros k Hk. destruct (Nat.lt_ge_cases k (search_cur g)); [apply K3; lia|]. destruct K2 as [_ K2]. rewrite K2 by lia. apply R3. auto.
    - intros g1 (m1 & -> & K1 & K2 & K3 & K4).
      eapply wp_mono; [apply clear_memory_spec; cbn [set_cur set_mem edge_bits search_cur]; auto; lia|].
      cbn [set_cur set_mem edge_bits search_cur]. intros g2 (m2 & -> & J1 & J2 & J3). replace (c0 + w - w) with c0 in * by lia.
      exists m2. split; [reflexivity|]. destruct J2 as [J2 J2']. split; [lia|]. split; auto. split.
      + intros k Hk. rewrite J2' by lia. apply K3. lia.
      + intros k Hk. destruct (Nat.lt_ge_cases k (c0 + w)); [apply J3; lia|]. rewrite J2' by lia. apply K4. auto.
  Qed.

  Definition first_of (S : nat -> bool) (j : nat) : Prop :=
    (j < N /\ S j = true /\ forall x, x < j -> S x = false) \/ (j = N /\ forall x, x < N -> S x = false).

  Lemma arena_top m sc id S fs st sts : arena m sc ((id, S) :: fs) (st :: sts) ->
    s_res st = refer_from rp N /\ s_cand st = refer_from (blk (length fs)) N
    /\ rep m (blk (length fs)) N S /\ s_id st = id
    /\ (forall x, x < N -> S x = true -> s_start st <= x /\ cp x = true /\ ~ In x (id :: ids fs) /\ forall p, In p (id :: ids fs) -> A p x = true).
  Proof.
    intros AR. destruct (ar_fr _ _ _ _ AR) as ((F1 & F2 & F3 & F4 & F5) & F6 & F7 & F8).
    repeat (split; [assumption|]). intros x Hx Ex. split; auto.
  Qed.

  (** The initial state. *)
  Lemma arena_root g mcs mv : let m := edge_bits g in
    shape a nv g mcs -> search_cur g = c0 -> zero_from m c0 -> c0 + 2 * w <= length m ->
    wp (root_state lr g (mkvert a mv cur))
       (fun r => let '(g', x) := r in
         exists m', g' = set_cur (set_mem g m') (c0 + 2 * w) /\ memok m' /\ length m' = length m
         /\ (forall k, k < c0 -> nth k m' 0%N = nth k m 0%N)
         /\ x = mkS (sp a cur) 0 (refer_from rp N) (refer_from (blk 0) N)
         /\ zero_from m' (c0 + 2 * w) /\ rep m' rp N (fun x => inb x [sp a cur]) /\ rep m' (blk 0) N (fun _ => false)).
  Proof.
    intros m SH HSC HZ SP. pose proof w_pos as W. destruct (sp_spec a nv HS Hself cur Hc) as [S1 S2].
    unfold root_state. cbn [mkvert vN vspos].
    rewrite load_memory_ok by (fold m; lia). cbn [bind].
    rewrite load_memory_ok by (cbn [set_cur search_cur edge_bits]; fold m; lia).
    cbn [bind set_cur search_cur edge_bits s_res]. fold m. rewrite HSC.
    assert (ERP : (if lr then c0 else c0 + w) = rp) by reflexivity. rewrite ERP.
    assert (ECP : (if lr then c0 + w else c0) = blk 0) by (unfold blk; destruct lr; cbn [andb negb Nat.eqb]; lia). rewrite ECP.
    pose proof rp_ge as RG. pose proof rp_le as RL. pose proof (blk_rp 0) as BR. pose proof (blk_ge 0) as BG. pose proof (blk_end 0) as BE.
    cbn [Nat.add] in BE.
    assert (Z1 : rep m rp N (fun _ => false)) by (apply rep_zero; [lia|intros; apply HZ; lia]).
    assert (Z2 : rep m (blk 0) N (fun _ => false)) by (apply rep_zero; [lia|intros; apply HZ; lia]).
    apply wp_bind.
    eapply wp_mono; [apply (bits_set_spec m rp N _ _ (sp a cur) (sh_mem _ _ _ _ SH) Z1); auto|].
    intros m1 (K1 & K2 & K3). apply wp_ok.
    exists m1. replace (c0 + w + w) with (c0 + 2 * w) by lia. split; [reflexivity|]. split; auto. destruct K3 as [K3l K3].
    split; auto. split; [intros k Hk; apply K3; lia|]. split; [reflexivity|].
    split; [intros k Hk; rewrite K3 by lia; apply HZ; lia|]. split.
    - eapply rep_ext; [exact K2|]. auto.
    - eapply rep_frame; [exact Z2|split; eauto|lia].
  Qed.

  Lemma arena_make m m2 : length m2 = length m -> memok m2 ->
    zero_from m (c0 + 2 * w) -> rep m rp N (fun x => inb x [sp a cur]) -> same_out m m2 (blk 0) w -> rep m2 (blk 0) N cp ->
    c0 + (bd + 1) * w <= length m ->
    arena m2 (c0 + 2 * w) [(sp a cur, cp)] [mkS (sp a cur) 0 (refer_from rp N) (refer_from (blk 0) N)].
  Proof.
    intros LM L1 HZ K2 L3 L2 HSP. destruct (sp_spec a nv HS Hself cur Hc) as [S1 S2].
    pose proof rp_ge as RG. pose proof rp_le as RL. pose proof (blk_rp 0) as BR. pose proof (blk_ge 0) as BG. pose proof (blk_end 0) as BE.
    cbn [Nat.add] in BE.
    split; auto.
    - intros k Hk. destruct L3 as [_ L3]. rewrite L3 by lia. apply HZ. lia.
    - eapply rep_frame; [exact K2|exact L3|lia].
    - cbn [finv length s_id s_res s_cand s_start].
      split; [split; [reflexivity|]; split; [reflexivity|]; split; [reflexivity|]; split; [exact L2|intros; lia]|].
      split; [|split; [|exact I]].
      * split; [exact S1|]. split; [reflexivity|]. split; [intros X; destruct (X eq_refl)|]. split; [intros []|intros p []].
      * intros x Hx Ex. split; auto. split.
        -- intros [<-|[]]. congruence.
        -- intros p [<-|[]]. apply (padj_root a nv HC); auto.
    - lia.
  Qed.
End Frames.

Section Init.
  Variables (a : pairs) (nv cur c0 : nat) (lr : bool).
  Hypothesis HC : gctx a nv.
  Hypothesis Hc : cur < nv.
  Notation w := (words (rlen a cur)).
  Let HS := gc_sorted _ _ HC.
  Let Hself := gc_self _ _ HC.

  Lemma arena_init g mcs mv : let m := edge_bits g in
    shape a nv g mcs -> search_cur g = c0 -> zero_from m c0 -> c0 + (bound a cur + 1) * w <= length m ->
    wp ('(g, x) <- root_state lr g (mkvert a mv cur);;
        '(m, pot) <- root_cands g (mkvert a mv cur) (s_cand x);; Ok (set_mem g m, x, pot))
       (fun r => let '(g', x, pot) := r in
         exists m', g' = set_cur (set_mem g m') (c0 + 2 * w) /\ length m' = length m
         /\ (forall k, k < c0 -> nth k m' 0%N = nth k m 0%N)
         /\ pot = bound a cur /\ arena a cur c0 lr (candp a cur) (bound a cur) m' (c0 + 2 * w) [(sp a cur, candp a cur)] [x]).
  Proof.
    intros m SH HSC HZ HSP.
    assert (B2 : 2 <= bound a cur + 1) by (rewrite (bound_card a); lia).
    assert (SP : c0 + 2 * w <= length m) by (etransitivity; [|exact HSP]; apply Nat.add_le_mono_l, Nat.mul_le_mono_r; lia).
    apply wp_bind. eapply wp_mono; [apply (arena_root a nv cur c0 lr HC Hc g mcs mv SH HSC HZ SP)|].
    intros [g1 x] (m1 & -> & M1 & M2 & M3 & -> & M5 & M6 & M7). cbn [s_cand].
    apply wp_bind. eapply wp_mono; [apply (root_cands_spec a nv HC _ mcs cur mv (blk a cur c0 lr 0))|]; auto.
    { destruct SH. split; auto. }
    cbn [set_mem set_cur edge_bits]. intros [m2 pot] (L1 & L2 & L3 & L4). cbn [fst snd] in *. apply wp_ok.
    exists m2. split; [reflexivity|]. assert (LM : length m2 = length m1) by (destruct L3; lia). split; [rewrite LM; exact M2|]. split.
    - intros k Hk. destruct L3 as [_ L3]. pose proof (blk_ge a nv cur c0 lr Hc 0). rewrite L3 by lia. apply M3. auto.
    - split; auto. apply (arena_make a nv cur c0 lr HC Hc _ _ (candp_sp a nv HS Hself cur Hc) m1); auto. rewrite M2. auto.
  Qed.
End Init.
