(** RadixFacts: radixSort, modUnique and clean_edges. *)
From Verif Require Import Base BaseFacts MUtils SortFacts.
From Coq Require Import Sorting.Sorted Sorting.Permutation.
Local Open Scope nat_scope.
Local Arguments Nat.sub : simpl never.
Local Arguments Nat.mul : simpl never.

Section Permute.
  Variables (a0 : pairs) (start fin shift : nat) (kf : bool).
  Hypothesis Hr : start <= fin <= length a0.
  Let c := cnt kf shift a0 start fin.
  Let bs k := start + psum c k.
  Notation dg x := (digit kf shift x).

  Lemma bs_S k : bs (S k) = bs k + c k. Proof. unfold bs. simpl. lia. Qed.
  Lemma bs_mono i j : i <= j -> bs i <= bs j. Proof. intros. unfold bs. pose proof (psum_mono c i j H). lia. Qed.
  Lemma bs_fin : bs 16 = fin. Proof. unfold bs, c. rewrite cnt_total. lia. Qed.
  Lemma bs_0 : bs 0 = start. Proof. unfold bs. simpl. lia. Qed.

  Lemma bin_disj i k p : i <> k -> bs i <= p < bs (S i) -> ~ (bs k <= p < bs (S k)).
  Proof.
    intros N H1 H2. destruct (Nat.lt_ge_cases i k) as [L|L].
    - pose proof (bs_mono (S i) k ltac:(lia)). lia.
    - pose proof (bs_mono (S k) i ltac:(lia)). lia.
  Qed.

  Lemma bin_of p : start <= p < fin -> exists k, k < 16 /\ bs k <= p < bs (S k).
  Proof.
    rewrite <- bs_fin, <- bs_0. generalize 16. induction n as [|n IH]; intros H; [lia|].
    destruct (Nat.lt_ge_cases p (bs n)) as [L|L].
    - destruct IH as (k & Hk & ?); [lia|]. exists k. split; auto.
    - exists n. split; lia.
  Qed.

  Lemma bin_in k p : k < 16 -> bs k <= p < bs (S k) -> start <= p < fin.
  Proof.
    intros Hk Hp. pose proof (bs_mono 0 k ltac:(lia)). pose proof (bs_mono (S k) 16 ltac:(lia)).
    rewrite bs_0, bs_fin in *. lia.
  Qed.

  (** There is room in bin k for one more entry. *)
  Lemma room a k hi j : perm_out a0 a start fin -> k < 16 -> bs k <= hi ->
    (forall p, bs k <= p < hi -> dg (at_ a p) = k) -> hi <= bs (S k) ->
    start <= j < fin -> ~ (bs k <= j < bs (S k)) -> dg (at_ a j) = k -> hi < bs (S k).
  Proof.
    intros HP Hk H1 H2 H3 Hj Nj Dj. destruct (Nat.eq_dec hi (bs (S k))) as [E|]; [|lia]. exfalso. subst hi.
    pose proof (cnt_positions kf shift a start fin k (j :: seq (bs k) (c k))) as CP.
    rewrite (cnt_perm kf shift a0 a start fin k Hr HP) in CP. fold (c k) in CP.
    cbn [length] in CP. rewrite seq_length in CP. rewrite bs_S in *.
    enough (S (c k) <= c k) by lia. apply CP.
    - constructor; [|apply seq_NoDup]. rewrite in_seq. lia.
    - intros p [<-|Hp]; auto. apply in_seq in Hp. split; [|apply H2; lia].
      apply (bin_in k p Hk). rewrite bs_S. lia.
  Qed.

  Definition fil (i : nat) (starts : list nat) (k : nat) : nat := if k <? i then bs (S k) else nth k starts 0.

  Definition pinv (i : nat) (a : pairs) (starts : list nat) : Prop :=
    perm_out a0 a start fin /\ length starts = 16
    /\ (forall k, k < 16 -> bs k <= nth k starts 0 <= bs (S k))
    /\ (forall k p, k < 16 -> bs k <= p < fil i starts k -> dg (at_ a p) = k).

  Lemma fil_le i starts k : bs k <= nth k starts 0 <= bs (S k) -> bs k <= fil i starts k <= bs (S k).
  Proof. unfold fil. intros. rewrite bs_S in *. destruct (k <? i); lia. Qed.

  Lemma rs_permute_spec starts ends :
    length starts = 16 -> length ends = 16 ->
    (forall d, d < 16 -> nth d starts 0 = bs d) -> (forall d, d < 16 -> nth d ends 0 = bs (S d)) ->
    wp (rs_permute a0 (fin - start) shift kf starts ends)
       (fun a => perm_out a0 a start fin /\ forall k p, k < 16 -> bs k <= p < bs (S k) -> dg (at_ a p) = k).
  Proof.
    intros L1 L2 HS HE. unfold rs_permute. apply wp_bind.
    apply wp_for with (I := fun i r => pinv i (fst r) (snd r) /\ forall k, i <= k < 16 -> bs k <= nth k (snd r) 0).
    - lia.
    - cbn [fst snd]. split; [|intros k Hk; rewrite HS; lia]. split; [apply perm_out_refl|]. split; auto. split.
      + intros k Hk. rewrite HS by auto. rewrite bs_S. lia.
      + intros k p Hk Hp. unfold fil in Hp. cbn in Hp. rewrite HS in Hp by auto. lia.
    - intros i [a st] Hi [(HP & Ls & Hb & Hd) _]. cbn [fst snd] in *.
      apply wp_bind. eapply wp_rd. { apply nth_error_nth' with (d := 0). lia. }
      apply wp_bind. eapply wp_rd. { apply nth_error_nth' with (d := 0). lia. }
      rewrite HE by lia.
      apply wp_loopN with
        (I := fun '(j, a, st) => bs i <= j <= bs (S i) /\ pinv i a st /\ forall p, bs i <= p < j -> dg (at_ a p) = i)
        (mu := fun '(j, a, st) => (bs (S i) - j) + psum (fun k => bs (S k) - nth k st 0) 16).
      + split; [apply Hb; lia|]. split; [repeat split; auto; try apply HP; apply Hb; auto|].
        intros p Hp. apply Hd; [lia|]. unfold fil. rewrite Nat.ltb_irrefl. auto.
      + assert (psum (fun k => bs (S k) - nth k st 0) 16 <= fin - start).
        { rewrite <- (cnt_total kf shift a0 start fin). apply psum_le. intros k Hk. specialize (Hb k Hk).
          rewrite bs_S in *. fold (c k). lia. }
        assert (bs (S i) <= fin). { rewrite <- bs_fin. apply bs_mono. lia. }
        assert (start <= bs i). { unfold bs. lia. }
        specialize (Hb i ltac:(lia)). lia.
      + clear a st HP Ls Hb Hd. intros [[j a] st] (Hj & (HP & Ls & Hb & Hd) & Hfill).
        destruct (Nat.ltb_spec j (bs (S i))) as [Lj|Lj].
        * assert (Hj' : start <= j < fin) by (apply (bin_in i); lia).
          pose proof HP as (La & _ & _).
          apply wp_bind. eapply wp_rd. { apply nth_error_nth' with (d := (0,0)). lia. }
          cbv zeta. set (k := dg (at_ a j)). assert (Hk : k < 16) by apply digit_lt.
          destruct (Nat.eqb_spec k i) as [E|E].
          -- apply wp_ok. split; [|lia]. split; [lia|]. split; [repeat split; auto; try apply HP; apply Hb; auto|].
             intros p Hp. destruct (Nat.eq_dec p j) as [->|]; [auto|]. apply Hfill. lia.
          -- assert (Nj : ~ (bs k <= j < bs (S k))) by (apply (bin_disj i); auto; lia).
             pose proof (fil_le i st k (Hb k Hk)) as Hf.
             pose proof (room a k (fil i st k) j HP Hk (proj1 Hf) (fun p Hp => Hd k p Hk Hp) (proj2 Hf) Hj' Nj eq_refl) as HR.
             assert (Hki : i < k). { unfold fil in HR. destruct (Nat.ltb_spec k i); lia. }
             assert (Ef : fil i st k = nth k st 0). { unfold fil. destruct (Nat.ltb_spec k i); auto; lia. }
             rewrite Ef in *. set (t := nth k st 0) in *.
             assert (Ht : start <= t < fin) by (apply (bin_in k); lia).
             apply wp_bind. eapply wp_rd. { apply nth_error_nth' with (d := 0). lia. }
             fold t. apply wp_bind. eapply wp_mono. { apply swap_spec; lia. }
             intros a' (La' & Pa' & Ha'). apply wp_bind. apply wp_wr; [lia|]. apply wp_ok.
             assert (HP' : perm_out a0 a' start fin).
             { eapply perm_out_trans; [exact HP|]. split; [auto|]. split; [auto|]. intros p Hp. rewrite Ha'.
               destruct (Nat.eqb_spec p t); [lia|]. destruct (Nat.eqb_spec p j); [lia|]. auto. }
             assert (Hst : forall q, nth q (upd st k (S t)) 0 = if q =? k then S t else nth q st 0).
             { intros q. rewrite nth_upd. rewrite (Nat.eqb_sym k q). destruct (Nat.eqb_spec q k); cbn [andb]; auto.
               replace (q <? length st) with true by (symmetry; apply Nat.ltb_lt; lia). auto. }
             split.
             ++ split; [lia|]. split.
                ** split; [auto|]. split; [rewrite upd_length; auto|]. split.
                   --- intros q Hq. rewrite Hst. destruct (Nat.eqb_spec q k) as [->|]; [lia|]. apply Hb. auto.
                   --- intros q p Hq Hp. unfold fil in Hp. rewrite Hst in Hp. rewrite Ha'.
                       destruct (Nat.eqb_spec p t) as [->|Npt].
                       { fold k. destruct (Nat.eq_dec k q); auto. exfalso. apply (bin_disj k q t); [auto|lia|].
                         pose proof (Hb q Hq). destruct (q <? i); [lia|]. destruct (Nat.eqb_spec q k); lia. }
                       destruct (Nat.eqb_spec p j) as [->|Npj].
                       { exfalso. assert (q = i).
                         { destruct (Nat.eq_dec q i); auto. exfalso. apply (bin_disj i q j); [auto|lia|].
                           pose proof (Hb q Hq). destruct (q <? i); [lia|]. destruct (Nat.eqb_spec q k); [|lia].
                           subst q. rewrite bs_S in *. lia. }
                         subst q. rewrite Nat.ltb_irrefl in Hp. destruct (Nat.eqb_spec i k); [lia|].
                         pose proof (Hd i j ltac:(lia)) as X. unfold fil in X. rewrite Nat.ltb_irrefl in X.
                         specialize (X Hp). fold k in X. lia. }
                       apply Hd; auto. unfold fil. destruct (q <? i); auto.
                       destruct (Nat.eqb_spec q k) as [->|]; auto. fold t. lia.
                ** intros p Hp. rewrite Ha'.
                   destruct (Nat.eqb_spec p t) as [->|]. { exfalso. apply (bin_disj k i t); lia. }
                   destruct (Nat.eqb_spec p j) as [->|]; [lia|]. apply Hfill. auto.
             ++ apply Nat.add_lt_mono_l. apply psum_dec with (k := k); auto.
                ** rewrite Hst, Nat.eqb_refl. fold t. lia.
                ** intros q Hq. rewrite Hst. destruct (Nat.eqb_spec q k) as [->|]; [fold t|]; lia.
        * apply wp_ok. cbn [fst snd]. split; [|intros k Hk; apply Hb; lia]. split; [auto|]. split; [auto|]. split; [auto|].
          intros k p Hk Hp. unfold fil in Hp. destruct (Nat.ltb_spec k (S i)) as [L|L].
          -- destruct (Nat.eq_dec k i) as [->|N]. { apply Hfill. lia. }
             apply Hd; auto. unfold fil. destruct (Nat.ltb_spec k i); [auto|lia].
          -- apply Hd; auto. unfold fil. destruct (Nat.ltb_spec k i); [lia|auto].
    - intros [a st] [(HP & Ls & Hb & Hd) _]. cbn [fst snd] in *. apply wp_ok. split; [auto|].
      intros k p Hk Hp. apply Hd; auto. unfold fil. destruct (Nat.ltb_spec k 16); [auto|lia].
  Qed.
End Permute.

(** ** radixSort *)
Definition agree (kf : bool) (shift : nat) (a : pairs) (s e : nat) : Prop :=
  forall p q, s <= p < e -> s <= q < e -> hikey kf shift (at_ a p) = hikey kf shift (at_ a q).

Lemma agree_perm kf shift a0 a s e : s <= e <= length a0 -> perm_out a0 a s e ->
  agree kf shift a0 s e -> agree kf shift a s e.
Proof.
  intros H HP HA p q Hp Hq.
  assert (K : forall r, s <= r < e -> hikey kf shift (at_ a r) = hikey kf shift (at_ a0 s)).
  { apply (perm_out_forall (fun x => hikey kf shift x = hikey kf shift (at_ a0 s)) a0 a s e H HP).
    intros r Hr. apply HA; lia. }
  rewrite K, K; auto.
Qed.

Definition small (ms : nat) (a : pairs) (s e : nat) : Prop := forall p, s <= p < e -> snd (at_ a p) / 2 ^ (ms + 4) = 0.

Lemma small_perm ms a0 a s e : s <= e <= length a0 -> perm_out a0 a s e -> small ms a0 s e -> small ms a s e.
Proof. intros H HP HA. exact (perm_out_forall (fun x => snd x / 2 ^ (ms + 4) = 0) a0 a s e H HP HA). Qed.

Lemma radixSort_spec fuel : forall a start fin d kf ms,
  start <= fin <= length a -> agree kf (4 * d) a start fin -> small (4 * ms) a start fin ->
  (if kf then ms + 1 else 0) + d < fuel ->
  wp (radixSort fuel a start fin (4 * d) kf (4 * ms)) (fun a' => perm_out a a' start fin /\ psorted a' start fin).
Proof.
  induction fuel as [|f IH]; intros a0 start fin d kf ms Hr HA HS HF; [lia|].
  cbn [radixSort]. apply wp_bind. eapply wp_mono. { apply rs_count_spec; auto. }
  intros ends0 [Le0 He0]. apply wp_bind.
  eapply wp_mono. { apply (rs_offsets_spec start (cnt kf (4 * d) a0 start fin) ends0); auto. }
  intros [starts ends] (L1 & L2 & H1 & H2). cbn [fst snd] in *. apply wp_bind.
  eapply wp_mono. { apply rs_permute_spec; auto. }
  intros a1 (HP1 & HD1).
  set (bs := fun k => start + psum (cnt kf (4 * d) a0 start fin) k) in *.
  assert (HA1 : agree kf (4 * d) a1 start fin) by (apply (agree_perm _ _ a0); auto).
  assert (HS1 : small (4 * ms) a1 start fin) by (apply (small_perm _ a0); auto).
  pose proof HP1 as (La1 & _ & _).
  pose proof (bin_of a0 start fin (4 * d) kf Hr) as HB. pose proof (bin_in a0 start fin (4 * d) kf Hr) as HBI.
  pose proof (bs_mono a0 start fin (4 * d) kf Hr) as HM. pose proof (bin_disj a0 start fin (4 * d) kf Hr) as HDJ.
  cbv beta zeta in HB, HBI, HM, HDJ. change (forall k p, k < 16 -> bs k <= p < bs (S k) -> digit kf (4 * d) (at_ a1 p) = k) in HD1.
  change (forall p, start <= p < fin -> exists k, k < 16 /\ bs k <= p < bs (S k)) in HB.
  change (forall k p, k < 16 -> bs k <= p < bs (S k) -> start <= p < fin) in HBI.
  change (forall i j, i <= j -> bs i <= bs j) in HM.
  change (forall i k p, i <> k -> bs i <= p < bs (S i) -> ~ (bs k <= p < bs (S k))) in HDJ.
  assert (HBF : bs 16 = fin) by (apply (bs_fin a0 start fin (4 * d) kf Hr)).
  assert (HB0 : bs 0 = start) by (unfold bs; simpl; lia).
  assert (HE : forall k, k < 16 -> nth k ends 0 = bs (S k)) by (intros; rewrite H2; auto).
  (* entries of one bin agree further *)
  assert (Final : forall a, perm_out a1 a start fin ->
     (forall k p, k < 16 -> bs k <= p < bs (S k) -> digit kf (4 * d) (at_ a p) = k) ->
     (forall k, k < 16 -> psorted a (bs k) (bs (S k))) -> psorted a start fin).
  { intros a HP HD HSo p q Hp Hq.
    assert (HAa : agree kf (4 * d) a start fin) by (apply (agree_perm _ _ a1); auto; lia).
    destruct (HB p ltac:(lia)) as (k & Hk & Bk). destruct (HB q ltac:(lia)) as (k' & Hk' & Bk').
    destruct (Nat.eq_dec k k') as [->|N].
    - apply (HSo k'); auto; lia.
    - assert (k < k'). { destruct (Nat.lt_ge_cases k k'); auto. exfalso. pose proof (HM (S k') k ltac:(lia)). lia. }
      assert (lexlt (at_ a p) (at_ a q)) as X.
      { apply (key_order kf (4 * d)). { apply HAa; lia. } rewrite (HD k p), (HD k' q) by auto. auto. }
      unfold lexlt, lexle in *. lia. }
  assert (Next : forall a k p q, agree kf (4 * d) a start fin -> k < 16 ->
     (forall p, bs k <= p < bs (S k) -> digit kf (4 * d) (at_ a p) = k) ->
     bs k <= p < bs (S k) -> bs k <= q < bs (S k) ->
     (4 <= 4 * d -> hikey kf (4 * d - 4) (at_ a p) = hikey kf (4 * d - 4) (at_ a q))
      /\ (4 * d = 0 -> kf = true -> fst (at_ a p) = fst (at_ a q)) /\ (4 * d = 0 -> kf = false -> at_ a p = at_ a q)).
  { intros a k p q HAa Hk HD Hp Hq. apply key_next.
    - apply HAa; eapply HBI; eauto.
    - rewrite !HD; auto. }
  destruct ((4 * d =? 0) && negb kf) eqn:E0.
  - apply andb_true_iff in E0. destruct E0 as [E0 E1]. apply Nat.eqb_eq in E0. apply negb_true_iff in E1.
    apply wp_ok. split; auto. apply Final; auto. { apply perm_out_refl. }
    intros k Hk p q Hp Hq.
    destruct (Next a1 k p q HA1 Hk (fun p => HD1 k p Hk) ltac:(lia) ltac:(lia)) as (_ & _ & X).
    rewrite X by auto. apply lexle_refl.
  - cbv zeta.
    apply wp_for with (I := fun i a => perm_out a1 a start fin
      /\ (forall k p, k < 16 -> bs k <= p < bs (S k) -> digit kf (4 * d) (at_ a p) = k)
      /\ (forall k, k < i -> psorted a (bs k) (bs (S k)))); try lia.
    + split; [apply perm_out_refl|]. split; auto. intros; lia.
    + intros i a Hi (HP & HD & HSo).
      assert (Es : (if i =? 0 then Ok start else rd ends (i - 1)) = Ok (bs i)).
      { destruct (Nat.eqb_spec i 0) as [->|]; [congruence|]. rewrite (rd_some ends (i - 1) (bs i)); auto.
        rewrite nth_error_nth' with (d := 0) by lia. rewrite HE by lia. do 2 f_equal. lia. }
      rewrite Es. cbn [bind]. apply wp_bind. eapply wp_rd. { apply nth_error_nth' with (d := 0). lia. }
      rewrite HE by lia.
      pose proof HP as (La & _ & _).
      assert (HAa : agree kf (4 * d) a start fin) by (apply (agree_perm _ _ a1); auto; lia).
      assert (HSa : small (4 * ms) a start fin) by (apply (small_perm _ a1); auto; lia).
      assert (Hbr : bs i <= bs (S i) /\ start <= bs i /\ bs (S i) <= fin).
      { split; [apply HM; lia|]. split; [rewrite <- HB0; apply HM; lia|rewrite <- HBF; apply HM; lia]. }
      assert (Step : forall a', perm_out a a' (bs i) (bs (S i)) -> psorted a' (bs i) (bs (S i)) ->
        perm_out a1 a' start fin
        /\ (forall k p, k < 16 -> bs k <= p < bs (S k) -> digit kf (4 * d) (at_ a' p) = k)
        /\ (forall k, k < S i -> psorted a' (bs k) (bs (S k)))).
      { intros a' HPa' HSa'. split.
        - eapply perm_out_trans; [exact HP|]. eapply perm_out_weaken; [exact HPa'|lia|lia].
        - split.
          + intros k p Hk Hp. destruct (Nat.eq_dec i k) as [->|N].
            * apply (perm_out_forall (fun x => digit kf (4 * d) x = k) a a' (bs k) (bs (S k))); auto; lia.
            * destruct HPa' as (_ & _ & HO). rewrite HO; auto. intros Hc. apply (HDJ i k p N Hc). auto.
          + intros k Hk. destruct (Nat.eq_dec i k) as [->|N]; auto.
            destruct HPa' as (_ & _ & HO). intros p q Hp Hq.
            rewrite !HO; [apply (HSo k); auto; lia| |]; intros Hc; apply (HDJ i k _ N Hc); lia. }
      destruct (Nat.leb_spec (bs (S i)) (bs i)) as [Le|Le].
      { apply wp_ok. apply Step; [apply perm_out_refl|]. intros p q Hp Hq. lia. }
      destruct (Nat.leb_spec (bs (S i) - bs i) 32) as [L32|L32].
      { eapply wp_mono. { apply insertionSort_spec. lia. }
        intros a' Hseg. apply seg_pointwise in Hseg; [|lia]. destruct Hseg. apply Step; auto. }
      assert (HSb : small (4 * ms) a (bs i) (bs (S i))). { intros p Hp. apply HSa. lia. }
      destruct (Nat.eqb_spec (4 * d) 0) as [Ed|Ed].
      * destruct kf; [|discriminate E0].
        eapply wp_mono.
        { apply (IH a (bs i) (bs (S i)) ms false ms); [lia| |auto|lia].
          intros p q Hp Hq. unfold hikey. rewrite !HSb by auto. f_equal.
          destruct (Next a i p q HAa ltac:(lia) (fun r => HD i r ltac:(lia)) Hp Hq) as (_ & X & _). auto. }
        intros a' []. apply Step; auto.
      * replace (4 * d - 4) with (4 * (d - 1)) by lia.
        eapply wp_mono.
        { apply (IH a (bs i) (bs (S i)) (d - 1) kf ms); [lia| |auto|destruct kf; lia].
          intros p q Hp Hq. replace (4 * (d - 1)) with (4 * d - 4) by lia.
          destruct (Next a i p q HAa ltac:(lia) (fun r => HD i r ltac:(lia)) Hp Hq) as (X & _ & _). apply X. lia. }
        intros a' []. apply Step; auto.
    + intros a (HP & HD & HSo). split.
      * eapply perm_out_trans; eauto.
      * apply Final; auto.
Qed.

(** ** modUnique *)
Lemma psorted_sub a s e s' e' : psorted a s e -> s <= s' -> e' <= e -> psorted a s' e'.
Proof. intros H ? ? p q Hp Hq. apply H; lia. Qed.

Lemma pair_neq_true (x y : nat * nat) : negb (fst x =? fst y) || negb (snd x =? snd y) = true -> x <> y.
Proof. intros H ->. rewrite !Nat.eqb_refl in H. discriminate. Qed.

Lemma pair_neq_false (x y : nat * nat) : negb (fst x =? fst y) || negb (snd x =? snd y) = false -> x = y.
Proof.
  intros H. apply orb_false_iff in H. rewrite !negb_false_iff, !Nat.eqb_eq in H. destruct x, y; simpl in *. f_equal; tauto.
Qed.

Lemma modUnique_spec a0 : sorted_le a0 ->
  wp (modUnique a0 0 (length a0)) (fun r => snd r <= length (fst r) /\ sorted_lt (firstn (snd r) (fst r)) /\ forall x, In x (firstn (snd r) (fst r)) <-> In x a0).
Proof.
  intros HS0. unfold modUnique. destruct (Nat.eqb_spec 0 (length a0)) as [E|E].
  { apply wp_ok. cbn [fst snd]. destruct a0; [|simpl in E; lia]. simpl. repeat split; auto; try constructor; tauto. }
  assert (HP : forall p q, p <= q < length a0 -> lexle (at_ a0 p) (at_ a0 q)).
  { clear E. induction HS0 as [|x l S IH F]; intros p q H; simpl in H; [lia|].
    destruct q as [|q]; [assert (p = 0) by lia; subst; apply lexle_refl|].
    destruct p as [|p]; simpl.
    - rewrite Forall_forall in F. apply F. apply nth_In. lia.
    - apply IH. lia. }
  apply wp_bind.
  apply wp_for with (I := fun s r => let a := fst r in let res := snd r in
     length a = length a0 /\ res < s /\ (forall p, s <= p -> at_ a p = at_ a0 p)
     /\ (forall p q, p < q <= res -> lexlt (at_ a p) (at_ a q))
     /\ at_ a res = at_ a0 (s - 1)
     /\ (forall x, (exists p, p <= res /\ at_ a p = x) <-> (exists p, p < s /\ at_ a0 p = x))).
  - lia.
  - cbn [fst snd]. repeat split; auto; try lia.
    + intros (p & Hp & Ex). exists p. split; [lia|auto].
    + intros (p & Hp & Ex). exists p. split; [lia|auto].
  - intros s [a res] Hs. cbn [fst snd]. intros (La & Hres & Hrest & Hlt & Hlast & Hmem).
    assert (R1 : rd a res = Ok (at_ a res)) by (apply rd_some, nth_error_nth'; lia).
    assert (R2 : rd a s = Ok (at_ a s)) by (apply rd_some, nth_error_nth'; lia).
    rewrite R1, R2. cbn [bind].
    destruct (negb (fst (at_ a res) =? fst (at_ a s)) || negb (snd (at_ a res) =? snd (at_ a s))) eqn:D.
    + apply pair_neq_true in D. cbv zeta.
      assert (Lt : lexlt (at_ a res) (at_ a s)).
      { pose proof (HP (s - 1) s ltac:(lia)) as X. rewrite Hlast in *. rewrite (Hrest s) in * by lia.
        unfold lexle, lexlt in *. destruct (at_ a0 (s - 1)) as [x1 x2], (at_ a0 s) as [y1 y2]. simpl in *.
        destruct X as [X|[X1 X2]]; [lia|]. right. split; auto.
        destruct (Nat.eq_dec x2 y2) as [->|]; [|lia]. exfalso. apply D. congruence. }
      assert (G : wp (if negb (S res =? s) then a <- wr a (S res) (at_ a s);; Ok (a, S res) else Ok (a, S res))
                 (fun r => snd r = S res /\ length (fst r) = length a
                    /\ forall p, at_ (fst r) p = if p =? S res then at_ a s else at_ a p)).
      { destruct (Nat.eqb_spec (S res) s) as [E1|E1]; cbn [negb].
        - apply wp_ok. cbn [fst snd]. repeat split; auto. intros p. rewrite E1. destruct (Nat.eqb_spec p s); congruence.
        - apply wp_bind. apply wp_wr; [lia|]. apply wp_ok. cbn [fst snd]. rewrite upd_length. repeat split; auto.
          intros p. rewrite nth_upd. rewrite (Nat.eqb_sym p (S res)). destruct (Nat.eqb_spec (S res) p); cbn [andb]; auto.
          replace (p <? length a) with true by (symmetry; apply Nat.ltb_lt; lia). auto. }
      eapply wp_mono; [exact G|]. intros [a' res'] (-> & La' & Ha'). cbn [fst snd] in *.
      split; [lia|]. split; [lia|]. split; [|split; [|split]].
      * intros p Hp. rewrite Ha'. destruct (Nat.eqb_spec p (S res)); [lia|]. apply Hrest. lia.
      * intros p q Hpq. rewrite !Ha'. destruct (Nat.eqb_spec p (S res)); [lia|].
        destruct (Nat.eqb_spec q (S res)).
        -- destruct (Nat.eq_dec p res) as [->|]; auto. pose proof (Hlt p res ltac:(lia)). unfold lexlt in *. lia.
        -- apply Hlt. lia.
      * rewrite Ha', Nat.eqb_refl. rewrite Hrest by lia. f_equal. lia.
      * intros x. split.
        -- intros (p & Hp & Ex). rewrite Ha' in Ex. destruct (Nat.eqb_spec p (S res)).
           ++ exists s. rewrite Hrest in Ex by lia. split; [lia|auto].
           ++ destruct (proj1 (Hmem x)) as (p' & ? & ?). { exists p. split; [lia|auto]. } exists p'. split; [lia|auto].
        -- intros (p & Hp & Ex). destruct (Nat.eq_dec p s) as [->|].
           ++ exists (S res). rewrite Ha', Nat.eqb_refl, Hrest by lia. auto.
           ++ destruct (proj2 (Hmem x)) as (p' & ? & ?). { exists p. split; [lia|auto]. }
              exists p'. rewrite Ha'. destruct (Nat.eqb_spec p' (S res)); [lia|]. split; [lia|auto].
    + apply pair_neq_false in D. apply wp_ok. cbn [fst snd].
      split; [lia|]. split; [lia|]. split; [|split; [|split]]; auto.
      * intros p Hp. apply Hrest. lia.
      * replace (S s - 1) with s by lia. rewrite D. apply Hrest. lia.
      * intros x. rewrite Hmem. split; intros (p & Hp & Ex).
        -- exists p. split; [lia|auto].
        -- destruct (Nat.eq_dec p s) as [->|]; [|exists p; split; [lia|auto]].
           exists (s - 1). split; [lia|]. rewrite <- Ex, <- (Hrest s), <- D, Hlast by lia. auto.
  - intros [a res]. cbn [fst snd]. intros (La & Hres & Hrest & Hlt & Hlast & Hmem). apply wp_ok. cbn [fst snd].
    assert (Lf : length (firstn (S res) a) = S res) by (rewrite firstn_length; lia).
    assert (Af : forall p, p < S res -> at_ (firstn (S res) a) p = at_ a p).
    { intros p Hp. rewrite <- (firstn_skipn (S res) a) at 2. rewrite app_nth1; auto. lia. }
    split; [lia|]. split.
    + assert (X : forall p q, p < q < length (firstn (S res) a) -> lexlt (at_ (firstn (S res) a) p) (at_ (firstn (S res) a) q)).
      { intros p q Hpq. rewrite Lf in Hpq. rewrite !Af by lia. apply Hlt. lia. }
      clear - X. induction (firstn (S res) a) as [|x l IH]; constructor.
      * apply IH. intros p q Hpq. apply (X (S p) (S q)). simpl. lia.
      * apply Forall_forall. intros y Hy. apply (In_nth _ _ (0,0)) in Hy. destruct Hy as (q & Hq & <-).
        apply (X 0 (S q)). simpl. lia.
    + intros x. transitivity (exists p, p <= res /\ at_ a p = x); [|rewrite Hmem].
      * split.
        -- intros H. apply (In_nth _ _ (0,0)) in H. destruct H as (p & Hp & Ex). rewrite Lf in Hp. exists p.
           rewrite Af in Ex by auto. split; [lia|auto].
        -- intros (p & Hp & Ex). rewrite <- Af in Ex by lia. rewrite <- Ex. apply nth_In. lia.
      * split.
        -- intros (p & Hp & Ex). rewrite <- Ex. apply nth_In. auto.
        -- intros H. apply (In_nth _ _ (0,0)) in H. destruct H as (p & Hp & Ex). exists p. auto.
Qed.

(** ** clean_edges *)
Lemma hex_digits_bound fuel : forall m, m <= fuel -> m / 2 ^ (4 * hex_digits fuel m) = 0.
Proof.
  induction fuel as [|f IH]; intros m Hm; cbn [hex_digits].
  - assert (m = 0) by lia. subst. apply Nat.div_0_l. apply Nat.pow_nonzero. lia.
  - destruct (Nat.eqb_spec m 0) as [->|N].
    + apply Nat.div_0_l. apply Nat.pow_nonzero. lia.
    + replace (4 * S (hex_digits f (Nat.shiftr m 4))) with (4 + 4 * hex_digits f (Nat.shiftr m 4)) by lia.
      rewrite Nat.pow_add_r, <- Nat.div_div by (apply Nat.pow_nonzero; lia).
      rewrite (Nat.shiftr_div_pow2 m 4). apply IH. change (2 ^ 4) with 16.
      pose proof (Nat.div_lt m 16 ltac:(lia) ltac:(lia)). lia.
Qed.

Lemma hex_digits_pos m : m <> 0 -> hex_digits m m <> 0.
Proof. destruct m; [lia|]. intros _. cbn [hex_digits]. simpl. lia. Qed.

Lemma clean_edges_spec n_vert a : n_vert <> 0 ->
  (forall x, In x a -> fst x < n_vert /\ snd x < n_vert) ->
  wp (clean_edges n_vert a) (fun a' => sorted_lt a' /\ forall x, In x a' <-> In x a).
Proof.
  intros Hn HB. unfold clean_edges. cbv zeta. set (d := hex_digits n_vert n_vert).
  assert (Hd : d <> 0) by (apply hex_digits_pos; auto).
  assert (HX : forall v, v < n_vert -> v / 2 ^ (4 * (d - 1) + 4) = 0).
  { intros v Hv. replace (4 * (d - 1) + 4) with (4 * d) by lia.
    pose proof (hex_digits_bound n_vert n_vert ltac:(lia)) as X. fold d in X.
    apply Nat.div_small_iff in X; [|apply Nat.pow_nonzero; lia]. apply Nat.div_small. lia. }
  replace (4 * d - 4) with (4 * (d - 1)) by lia.
  apply wp_bind. eapply wp_mono.
  { apply radixSort_spec with (fuel := 2 * d) (d := d - 1) (ms := d - 1) (kf := true).
    - lia.
    - intros p q Hp Hq. unfold hikey. destruct (HB (at_ a p)); [apply nth_In; lia|]. destruct (HB (at_ a q)); [apply nth_In; lia|].
      rewrite !HX; auto.
    - intros p Hp. destruct (HB (at_ a p)); [apply nth_In; lia|]. apply HX. auto.
    - lia. }
  intros a1 ((L1 & P1 & _) & S1). rewrite <- L1 in S1. apply psorted_list in S1.
  apply wp_bind. eapply wp_mono. { apply modUnique_spec. auto. }
  intros [a2 m] (L2 & S2 & M2). cbn [fst snd] in *. apply wp_ok. split; auto.
  intros x. rewrite M2. split; intros; [eapply Permutation_in; [apply Permutation_sym|]|eapply Permutation_in]; eauto.
Qed.
