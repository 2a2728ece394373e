(** EpsFacts: the matching loop exactly, and what a larger epsilon does to it. *)
From Verif Require Import Base BaseFacts MBits MUtils MGraph MApi MExt Spec FindFacts FindTwo RowFacts ConstructFacts LoadFacts ExportFacts LoadProps ExtFacts.
From Coq Require Import Sorting.Sorted Sorting.Permutation.
Local Open Scope nat_scope.
Local Arguments Nat.sub : simpl never.
Local Arguments Nat.mul : simpl never.
Local Arguments Nat.div : simpl never.

(** Entry [j] is matched when the interval searched for is [v] to [w]. *)
Definition taken (s2 : list pdist) (v w : Z) (j : nat) : Prop :=
  exists f1 k1 f2 k2, binary_find2 s2 (length s2) v 0 = Ok (f1, Z.of_nat k1) /\ binary_find2 s2 (length s2) w 0 = Ok (f2, Z.of_nat k2)
    /\ f1 <> (-1)%Z /\ k1 <= j /\ j < length s2 /\ (j <= k2 \/ f2 = (-1)%Z).

Lemma find2_total s2 v : 0 < length s2 -> (Z.of_nat (length s2) < 9223372036854775808)%Z -> ascending s2 ->
  exists f k, binary_find2 s2 (length s2) v 0 = Ok (f, Z.of_nat k) /\ found2 s2 v f k.
Proof.
  intros H1 H2 H3. pose proof (binary_find2_spec s2 v 0 H1 H2 H3) as W. apply wp_iff in W.
  destruct W as ([f z] & E & k & Ek & F). cbn [fst snd] in *. subst z. eauto.
Qed.

Section Loop.
  Variable turn : pdist -> pdist -> pairs.
  Variables s1 s2 : list pdist.
  Variable eps : Z.
  Variable rnd : Z -> Z.
  Hypothesis Hr : forall a b, (a <= b)%Z -> (rnd a <= rnd b)%Z.
  Let lo (a : Z) : Z := rnd (a - eps)%Z.
  Let hi (a : Z) : Z := rnd (lo a + 2 * eps)%Z.
  Hypothesis HS1 : ascending s1.
  Hypothesis HS2 : ascending s2.
  Hypothesis H2 : 0 < length s2.
  Hypothesis HZ : (Z.of_nat (length s2) < 9223372036854775808)%Z.

  Lemma efr_loop_exact k lb ub : k <= length s1 ->
    wp (efr_loop rnd (fun x y => Ok (turn x y)) s1 s2 (length s2) eps (seq k (length s1 - k)) lb ub)
       (fun rows => forall r, In r rows <-> exists i j, k <= i < length s1 /\ taken s2 (lo (dst s1 i)) (hi (dst s1 i)) j
          /\ In r (turn (nth i s1 z0) (nth j s2 z0))).
  Proof.
    remember (length s1 - k) as m eqn:Em. revert k Em lb ub. induction m as [|m IH]; intros k Em lb ub Hk.
    - cbn [seq efr_loop]. apply wp_ok. intros r. split; [intros []|]. intros (i & j & Hi & _). lia.
    - cbn [seq efr_loop].
      assert (Hk' : k < length s1) by lia.
      rewrite (rd_some s1 k (nth k s1 z0)) by (apply nth_error_Some_nth; auto). cbn [bind]. cbv zeta.
      set (x := nth k s1 z0) in *.
      change (rnd (d_dist x - eps)%Z) with (lo (d_dist x)). change (rnd (lo (d_dist x) + 2 * eps)%Z) with (hi (d_dist x)).
      rewrite (binary_find2_loc s2 (lo (d_dist x)) lb 0) by auto.
      destruct (find2_total s2 (lo (d_dist x)) H2 HZ HS2) as (f1 & k1 & E1 & F1). rewrite E1. cbn [bind].
      destruct (Z.eqb_spec f1 (-1)) as [E|NE].
      { apply wp_ok. intros r. split; [intros []|]. intros (i & j & Hi & (g1 & l1 & g2 & l2 & G1 & _ & N & L & J & _) & _).
        destruct F1 as (_ & [(_ & _ & A)|[(E' & _)|(E' & _)]]); try (rewrite E in E'; discriminate).
        destruct (find2_total s2 (lo (dst s1 i)) H2 HZ HS2) as (h1 & m1 & M1 & (P0 & P)). rewrite G1 in M1. injection M1 as <- M1.
        apply Nat2Z.inj in M1. subst m1.
        pose proof (HS1 k i ltac:(lia)) as Q. fold x in Q. pose proof (Hr (d_dist x - eps) (dst s1 i - eps) ltac:(lia))%Z as Q'.
        fold (lo (d_dist x)) in Q'. fold (lo (dst s1 i)) in Q'.
        destruct P as [(E' & _)|[(_ & E')|(_ & b & B1 & B2 & B3 & B4)]]; [congruence| |].
        - specialize (A l1 P0). lia.
        - assert (b = length s2).
          { destruct (Nat.eq_dec b (length s2)); auto. pose proof (B3 b ltac:(lia)). pose proof (A b ltac:(lia)). lia. }
          (* then binary_find2 answers -1 *)
          clear B4. unfold binary_find2 in G1. rewrite (wrap_small (Z.of_nat (length s2) - 1)) in G1 by (unfold p64; lia).
          replace (Z.of_nat (length s2) - 1)%Z with (Z.of_nat (length s2 - 1)) in G1 by lia.
          rewrite (rdz_nat s2 (length s2 - 1) z0) in G1 by lia. cbn [bind] in G1.
          pose proof (B2 (length s2 - 1) ltac:(lia)) as B. apply Z.ltb_lt in B. rewrite B in G1. congruence. }
      rewrite (binary_find2_loc s2 (hi (d_dist x)) ub 0) by auto.
      destruct (find2_total s2 (hi (d_dist x)) H2 HZ HS2) as (f2 & k2 & E2 & F2). rewrite E2. cbn [bind].
      set (ub' := if (f2 =? -1)%Z then wrap (Z.of_nat (length s2) - 1) else Z.of_nat k2).
      assert (U : exists u, ub' = Z.of_nat u /\ u < length s2 /\ forall j, j <= u <-> (j < length s2 /\ (j <= k2 \/ f2 = (-1)%Z))).
      { unfold ub'. destruct (Z.eqb_spec f2 (-1)) as [E|N2].
        - exists (length s2 - 1). split; [|split; [lia|]].
          + rewrite wrap_small by (unfold p64; lia). lia.
          + destruct F2 as (K2 & _). intros j. lia.
        - exists k2. split; auto. destruct F2 as (K2 & _). split; auto. intros j. lia. }
      destruct U as (u & Eu & U1 & U2). rewrite Eu. rewrite !Nat2Z.id.
      rewrite (collect_pure _ (fun j => turn x (nth j s2 z0))).
      2:{ intros j I. apply in_seq in I. rewrite (rd_some s2 j (nth j s2 z0)) by (apply nth_error_Some_nth; lia). reflexivity. }
      cbn [bind]. apply wp_bind. eapply wp_mono; [apply (IH (S k)); lia|].
      intros rows R. cbv beta in R. apply wp_ok. intros r. rewrite in_app_iff, R, in_flat_map. split.
      + intros [(j & J & I)|(i & j & Hi & T & I)].
        * apply in_seq in J. exists k, j. split; [lia|]. split; auto. exists f1, k1, f2, k2. repeat split; auto; [lia|lia|]. apply U2. lia.
        * exists i, j. split; [lia|]. auto.
      + intros (i & j & Hi & T & I). destruct (Nat.eq_dec i k) as [->|N]; [left|right].
        * exists j. fold x in T, I. destruct T as (g1 & l1 & g2 & l2 & G1 & G2 & N & L & J & T).
          rewrite E1 in G1. rewrite E2 in G2. injection G1 as <- G1. injection G2 as <- G2. apply Nat2Z.inj in G1, G2. subst l1 l2.
          split; auto. apply in_seq. assert (j <= u) by (apply U2; auto). lia.
        * exists i, j. split; [lia|]. auto.
  Qed.
End Loop.

(** ** Wider intervals *)

(** binary_find2 only compares. *)
Lemma bf2_loop_same a v v' : (forall x, In x a -> (d_dist x =? v)%Z = (d_dist x =? v')%Z /\ (d_dist x <? v)%Z = (d_dist x <? v')%Z) ->
  forall fuel beg fin loc, bf2_loop fuel a v beg fin loc = bf2_loop fuel a v' beg fin loc.
Proof.
  intros H. induction fuel as [|f IH]; intros beg fin loc; auto. cbn [bf2_loop]. destruct (beg <=? fin)%Z; auto. cbv zeta.
  destruct (rdz a _) as [x| |] eqn:E; auto. cbn [bind].
  assert (I : In x a).
  { unfold rdz in E. destruct (_ <? _)%Z; [|discriminate]. unfold rd in E. destruct (nth_error a _) eqn:E'; [|discriminate]. injection E as <-.
    eapply nth_error_In; eauto. }
  destruct (H x I) as (-> & ->). destruct (d_dist x =? v')%Z; auto. destruct (d_dist x <? v')%Z; apply IH.
Qed.

Lemma rdz_in {A} (a : list A) z x : rdz a z = Ok x -> In x a.
Proof.
  intros E. unfold rdz in E. destruct (_ <? _)%Z; [|discriminate]. unfold rd in E. destruct (nth_error a _) eqn:E'; [|discriminate]. injection E as <-.
  eapply nth_error_In; eauto.
Qed.

Lemma binary_find2_same a v v' n loc : (forall x, In x a -> (d_dist x =? v)%Z = (d_dist x =? v')%Z /\ (d_dist x <? v)%Z = (d_dist x <? v')%Z) ->
  binary_find2 a n v loc = binary_find2 a n v' loc.
Proof.
  intros H. unfold binary_find2. generalize 65. intros fuel. destruct (rdz a _) as [x| |] eqn:E; auto. cbn [bind].
  destruct (H x (rdz_in _ _ _ E)) as (_ & ->). destruct (d_dist x <? v')%Z; auto.
  destruct (rdz a 0) as [y| |] eqn:E'; auto. cbn [bind]. destruct (H y (rdz_in _ _ _ E')) as (H1 & H2).
  assert (Q : forall w, (w <? d_dist y)%Z = negb (d_dist y <? w)%Z && negb (d_dist y =? w)%Z).
  { intros w. destruct (Z.ltb_spec w (d_dist y)), (Z.ltb_spec (d_dist y) w), (Z.eqb_spec (d_dist y) w); cbn; auto; lia. }
  rewrite !Q, H1, H2. destruct (_ && _); auto. apply bf2_loop_same. auto.
Qed.

Lemma taken_grow s2 v w v' w' j : 0 < length s2 -> (Z.of_nat (length s2) < 9223372036854775808)%Z -> ascending s2 ->
  (v' <= v)%Z -> (w <= w')%Z -> taken s2 v w j -> taken s2 v' w' j.
Proof.
  intros HL HZ HS Hv Hw (f1 & k1 & f2 & k2 & E1 & E2 & N & K & J & T).
  destruct (find2_total s2 v HL HZ HS) as (g & m & M & F1). rewrite E1 in M. injection M as <- M. apply Nat2Z.inj in M. subst m.
  destruct (find2_total s2 w HL HZ HS) as (g & m & M & F2). rewrite E2 in M. injection M as <- M. apply Nat2Z.inj in M. subst m.
  destruct (find2_total s2 v' HL HZ HS) as (g1 & m1 & M1 & G1). destruct (find2_total s2 w' HL HZ HS) as (g2 & m2 & M2 & G2).
  assert (A : g1 <> (-1)%Z /\ m1 <= j).
  { destruct (Z.lt_trichotomy (dst s2 j) v') as [L|[L|L]].
    - assert (binary_find2 s2 (length s2) v 0 = binary_find2 s2 (length s2) v' 0) as Q.
      { apply binary_find2_same. intros x I. destruct (In_nth s2 x z0 I) as (i & I1 & <-).
        destruct F1 as (_ & [(B & _)|[(_ & B)|(_ & b & B1 & B2 & B3 & B4)]]); [congruence| |].
        - pose proof (HS k1 j ltac:(lia)). lia.
        - assert (j < b) by (destruct (Nat.lt_ge_cases j b) as [|G]; auto; pose proof (B3 j ltac:(lia)); lia).
          assert (b = S j) by lia. subst b. destruct (Nat.lt_ge_cases i (S j)) as [I2|I2].
          + pose proof (HS i j ltac:(lia)). split; [destruct (Z.eqb_spec (dst s2 i) v), (Z.eqb_spec (dst s2 i) v'); auto; lia|].
            destruct (Z.ltb_spec (dst s2 i) v), (Z.ltb_spec (dst s2 i) v'); auto; lia.
          + pose proof (B3 i ltac:(lia)). split; [destruct (Z.eqb_spec (dst s2 i) v), (Z.eqb_spec (dst s2 i) v'); auto; lia|].
            destruct (Z.ltb_spec (dst s2 i) v), (Z.ltb_spec (dst s2 i) v'); auto; lia. }
      rewrite <- Q, E1 in M1. injection M1 as <- M1. apply Nat2Z.inj in M1. subst m1. auto.
    - destruct (Z.eq_dec v' v) as [->|NV].
      { rewrite E1 in M1. injection M1 as <- M1. apply Nat2Z.inj in M1. subst m1. auto. }
      assert (j = k1 /\ forall i, j < i < length s2 -> (v < dst s2 i)%Z) as (Q1 & Q2).
      { destruct F1 as (_ & [(B & _)|[(_ & B)|(_ & b & B1 & B2 & B3 & B4)]]); [congruence| |].
        - pose proof (HS k1 j ltac:(lia)). lia.
        - assert (j < b) by (destruct (Nat.lt_ge_cases j b) as [|G]; auto; pose proof (B3 j ltac:(lia)); lia).
          split; [lia|]. intros i I. apply B3. lia. }
      destruct G1 as (P & [(B & _ & B')|[(B & B')|(B & b & B1 & B2 & B3 & B4)]]).
      + specialize (B' j J). lia.
      + split; [lia|]. destruct (Nat.le_gt_cases m1 j) as [|G]; auto. pose proof (Q2 m1 ltac:(lia)). lia.
      + destruct (Nat.lt_ge_cases j b); [pose proof (B2 j ltac:(lia))|pose proof (B3 j ltac:(lia))]; lia.
    - destruct G1 as (P & [(B & _ & B')|[(B & B')|(B & b & B1 & B2 & B3 & B4)]]).
      + specialize (B' j J). lia.
      + split; [lia|]. destruct (Nat.le_gt_cases m1 j); auto. pose proof (HS j m1 ltac:(lia)). lia.
      + split; [lia|]. destruct (Nat.lt_ge_cases j b); [pose proof (B2 j ltac:(lia))|]; lia. }
  assert (B : j <= m2 \/ g2 = (-1)%Z).
  { destruct (Z.lt_trichotomy (dst s2 j) w') as [L|[L|L]].
    - destruct G2 as (P & [(B & _)|[(B & B')|(B & b & B1 & B2 & B3 & B4)]]); auto; left.
      + destruct (Nat.le_gt_cases j m2); auto. pose proof (HS m2 j ltac:(lia)). lia.
      + destruct (Nat.lt_ge_cases j b); [lia|pose proof (B3 j ltac:(lia)); lia].
    - destruct (Z.eq_dec w' w) as [->|NW].
      { rewrite E2 in M2. injection M2 as <- M2. apply Nat2Z.inj in M2. subst m2. auto. }
      assert (forall i, i < j -> (dst s2 i < w)%Z) as Q.
      { destruct F2 as (P & [(B & _ & B')|[(B & B')|(B & b & B1 & B2 & B3 & B4)]]).
        - specialize (B' j J). lia.
        - destruct T as [T|T]; [|lia]. pose proof (HS j k2 ltac:(lia)). lia.
        - destruct T as [T|T]; [|lia]. assert (b <= j) by (destruct (Nat.lt_ge_cases j b) as [G|]; auto; pose proof (B2 j G); lia).
          intros i I. apply B2. lia. }
      destruct G2 as (P & [(B & _)|[(B & B')|(B & b & B1 & B2 & B3 & B4)]]); auto.
      + left. destruct (Nat.le_gt_cases j m2) as [|G]; auto. pose proof (Q m2 G). lia.
      + destruct (Nat.lt_ge_cases j b); [pose proof (B2 j ltac:(lia))|pose proof (B3 j ltac:(lia))]; lia.
    - assert (binary_find2 s2 (length s2) w 0 = binary_find2 s2 (length s2) w' 0) as Q.
      { apply binary_find2_same. intros x I. destruct (In_nth s2 x z0 I) as (i & I1 & <-).
        destruct F2 as (P & [(B & _ & B')|[(B & B')|(B & b & B1 & B2 & B3 & B4)]]).
        - specialize (B' j J). lia.
        - destruct T as [T|T]; [|lia]. pose proof (HS j k2 ltac:(lia)). lia.
        - destruct T as [T|T]; [|lia]. assert (b <= j) by (destruct (Nat.lt_ge_cases j b) as [G|]; auto; pose proof (B2 j G); lia).
          assert (b = j) by lia. subst b. destruct (Nat.lt_ge_cases i j) as [I2|I2].
          + pose proof (B2 i I2). split; [destruct (Z.eqb_spec (dst s2 i) w), (Z.eqb_spec (dst s2 i) w'); auto; lia|].
            destruct (Z.ltb_spec (dst s2 i) w), (Z.ltb_spec (dst s2 i) w'); auto; lia.
          + pose proof (HS j i ltac:(lia)). pose proof (B3 j ltac:(lia)). split; [destruct (Z.eqb_spec (dst s2 i) w), (Z.eqb_spec (dst s2 i) w'); auto; lia|].
            destruct (Z.ltb_spec (dst s2 i) w), (Z.ltb_spec (dst s2 i) w'); auto; lia. }
      rewrite <- Q, E2 in M2. injection M2 as <- M2. apply Nat2Z.inj in M2. subst m2. auto. }
  exists g1, m1, g2, m2. destruct A. auto 10.
Qed.

(** ** The graphs *)
Lemma turn_grows cf cf' basym n2 x y r : (forall i i' j j', cf i i' j j' = true -> cf' i i' j j' = true) ->
  In r (efr_turn cf basym n2 x y) -> In r (efr_turn cf' basym n2 x y).
Proof.
  intros H. unfold efr_turn. rewrite !in_app_iff. intros [I|I]; [left|right].
  - destruct (cf (d_fst x) (d_snd x) (d_fst y) (d_snd y)) eqn:E; [|destruct I]. rewrite (H _ _ _ _ E). exact I.
  - destruct basym; auto. destruct (cf (d_fst x) (d_snd x) (d_snd y) (d_fst y)) eqn:E; [|destruct I]. rewrite (H _ _ _ _ E). exact I.
Qed.

Section Exact.
  Variable srt : list pdist -> list pdist.
  Variables S1 S2 : mset.
  Hypothesis Hsrt : sorts_dists srt.
  Variable rnd : Z -> Z.
  Hypothesis Hr : rises rnd.
  Hypothesis HF2 : table_fits S2.
  Let n1 := m_n S1.
  Let n2 := m_n S2.
  Let basym := negb (m_sym S1) && negb (m_sym S2).
  Let t1 := srt (entries (m_sym S1) n1 (m_d S1)).
  Let t2 := srt (entries (m_sym S2) n2 (m_d S2)).

  (** What one turn of the outer loop sees. *)
  Definition pushed (cf : nat -> nat -> nat -> nat -> bool) (eps : Z) (r : nat * nat) : Prop := exists x j, In x t1
    /\ taken t2 (lower eps rnd (d_dist x)) (upper eps rnd (d_dist x)) j /\ In r (efr_turn cf basym n2 x (nth j t2 z0)).

  Lemma t2_facts : 2 <= n2 -> 0 < length t2 /\ (Z.of_nat (length t2) < 9223372036854775808)%Z /\ ascending t2.
  Proof.
    intros L2. pose proof (t2_len srt S2 Hsrt) as L. fold n2 in L. fold t2 in L. split; [|split].
    - rewrite L. apply dist_len_pos; auto.
    - rewrite L. pose proof (dist_len_le (m_sym S2) n2). unfold table_fits, fits in HF2. fold n2 in HF2. lia.
    - apply sorted_ascending, (proj2 (Hsrt _)).
  Qed.

  Lemma build_exact cf eps p q : build_edges_r rnd srt p S1 S2 eps cf = Ok (Ret q) -> edges_fit q ->
    (2 <= n1 -> 2 <= n2) /\ exists rows, (forall u v, neighbour q u v <-> adj_rows rows u v) /\ forall r, In r rows <-> pushed cf eps r.
  Proof.
    intros E HF. destruct (Nat.eq_dec n1 0) as [Z1|P1]; [rewrite (build_empty srt S1 S2 eps cf rnd p) in E by auto; discriminate|].
    destruct (Nat.eq_dec n2 0) as [Z2|P2]; [rewrite (build_empty srt S1 S2 eps cf rnd p) in E by auto; discriminate|].
    assert (HN : n1 = 1 \/ 2 <= n2).
    { destruct (Nat.eq_dec n2 1) as [O|O]; [|lia]. destruct (Nat.eq_dec n1 1); auto. rewrite (build_one srt S1 S2 eps cf Hsrt rnd p) in E by (fold n1 n2; lia). discriminate. }
    split; [lia|].
    unfold build_edges_r in E. rewrite !fill_dists_eq in E. cbn [bind] in E. fold n1 n2 t1 t2 in E.
    pose proof (relset_rows_spec srt S1 S2 eps cf Hsrt rnd Hr HF2 ltac:(fold n1; lia) ltac:(fold n2; lia) HN) as W. apply wp_iff in W.
    fold n1 n2 t1 t2 in W. destruct W as (r & E1 & rows & -> & R).
    rewrite E1 in E. cbn [bind] in E. apply bind_ok in E. destruct E as (q' & E2 & E3). injection E3 as ->.
    exists rows. destruct (load_rows_counts _ _ _ _ E2) as (C1 & C2).
    unfold edges_fit in HF. rewrite C1, C2 in HF.
    destruct (load_rows_neighbour p (n1 * n2) rows q HF (proper_ok _ _ _ (rows_proper srt S1 S2 eps cf rnd rows R)) E2) as (A & B & C & D).
    split; [exact D|]. clear - E1 P1 P2 HN Hsrt Hr HF2.
    unfold efr_condition_r, relset_rows in E1. cbn [rs_n rs_sym rs_dists] in E1.
    destruct (Nat.eqb_spec n1 0); [lia|]. destruct (Nat.eqb_spec n2 0); [lia|]. cbn [orb] in E1. cbv zeta in E1. fold basym in E1.
    pose proof (t1_len srt S1 Hsrt) as L1. fold n1 in L1. fold t1 in L1. pose proof (t2_len srt S2 Hsrt) as L2. fold n2 in L2. fold t2 in L2.
    rewrite <- L1, <- L2 in E1. apply bind_ok in E1. destruct E1 as (l & E1 & E). injection E as ->.
    destruct (Nat.le_gt_cases 2 n2) as [G2|G2].
    - destruct (t2_facts G2) as (T1 & T2 & T3).
      pose proof (efr_loop_exact (efr_turn cf basym n2) t1 t2 eps rnd Hr (sorted_ascending _ (proj2 (Hsrt _))) T3 T1 T2
        0 0%Z (Z.of_nat (length t2)) (Nat.le_0_l _)) as W. rewrite Nat.sub_0_r, E1 in W. cbn [wp ends_with] in W. intros r. rewrite W. split.
      + intros (i & j & I & T & J). exists (nth i t1 z0), j. split; [apply nth_In; lia|]. auto.
      + intros (x & j & I & T & J). destruct (In_nth t1 x z0 I) as (i & I1 & <-). exists i, j. split; [lia|]. auto.
    - assert (n1 = 1) by lia. assert (Z1 : length t1 = 0).
      { rewrite L1. pose proof (dist_len_pos (m_sym S1) n1). lia. }
      rewrite Z1 in E1. cbn [seq efr_loop] in E1. injection E1 as <-. intros r. split; [intros []|].
      intros (x & j & I & _). apply length_zero_iff_nil in Z1. rewrite Z1 in I. destruct I.
  Qed.

  Lemma build_grows cf cf' eps eps' p p' q q' : build_edges_r rnd srt p S1 S2 eps cf = Ok (Ret q) -> edges_fit q ->
    build_edges_r rnd srt p' S1 S2 eps' cf' = Ok (Ret q') -> edges_fit q' ->
    (forall i i' j j', cf i i' j j' = true -> cf' i i' j j' = true) ->
    (forall i i', two S1 i i' -> (lower eps' rnd (m_d S1 i i') <= lower eps rnd (m_d S1 i i')
                                  /\ upper eps rnd (m_d S1 i i') <= upper eps' rnd (m_d S1 i i'))%Z) ->
    forall u v, neighbour q u v -> neighbour q' u v.
  Proof.
    intros E HF E' HF' HC HB u v N. destruct (build_exact cf eps p q E HF) as (G & rows & A & R).
    destruct (build_exact cf' eps' p' q' E' HF') as (_ & rows' & A' & R'). apply A'. apply A in N. destruct N as (N & I). split; auto.
    assert (K : forall r, In r rows -> In r rows').
    { intros r Ir. apply R'. apply R in Ir. destruct Ir as (x & j & X & T & J). exists x, j. split; [exact X|]. split; [|exact (turn_grows cf cf' basym n2 x _ r HC J)].
      pose proof X as X'. apply (t1_in srt S1 Hsrt) in X'. destruct X' as ((X1 & X2 & X3 & _) & Xd). fold n1 in X1, X2.
      destruct (t2_facts ltac:(lia)) as (T1 & T2 & T3). destruct (HB (d_fst x) (d_snd x)) as (B1 & B2); [repeat split; auto|].
      rewrite <- Xd in B1, B2. exact (taken_grow _ _ _ _ _ j T1 T2 T3 B1 B2 T). }
    destruct I as [I|I]; auto.
  Qed.
End Exact.

(** Exact arithmetic *)
Lemma epsilon_grows srt S1 S2 f f' eps eps' : sorts_dists srt -> table_fits S2 -> (eps <= eps')%Z ->
  (forall i i' j j', f i i' j j' = true -> f' i i' j j' = true) ->
  forall p p' q q' u v, build_edges srt p S1 S2 eps f = Ok (Ret q) -> edges_fit q -> build_edges srt p' S1 S2 eps' f' = Ok (Ret q') -> edges_fit q' ->
  neighbour q u v -> neighbour q' u v.
Proof.
  intros Hs HT He Hf p p' q q' u v E HF E' HF' N.
  refine (build_grows srt S1 S2 Hs exact _ HT f f' eps eps' p p' q q' E HF E' HF' Hf _ u v N); [intros a b; auto|].
  intros i i' _. unfold upper, lower, exact. lia.
Qed.

(** Sums that are rounded, differences that are not *)
Lemma epsilon_grows_r rnd srt S1 S2 f f' eps eps' : rises rnd -> sorts_dists srt -> table_fits S2 -> (eps <= eps')%Z ->
  (forall i i' j j', f i i' j j' = true -> f' i i' j j' = true) ->
  (forall i i', two S1 i i' -> rnd (m_d S1 i i' - eps) = m_d S1 i i' - eps /\ rnd (m_d S1 i i' - eps') = m_d S1 i i' - eps')%Z ->
  forall p p' q q' u v, build_edges_r rnd srt p S1 S2 eps f = Ok (Ret q) -> edges_fit q -> build_edges_r rnd srt p' S1 S2 eps' f' = Ok (Ret q') -> edges_fit q' ->
  neighbour q u v -> neighbour q' u v.
Proof.
  intros Hr Hs HT He Hf HX p p' q q' u v E HF E' HF' N.
  refine (build_grows srt S1 S2 Hs rnd Hr HT f f' eps eps' p p' q q' E HF E' HF' Hf _ u v N).
  intros i i' T. destruct (HX i i' T) as (X1 & X2). unfold upper, lower. rewrite X1, X2. split; [lia|]. apply Hr. lia.
Qed.

(** One epsilon, more conditions: whatever the rounding *)
Lemma condition_grows rnd srt S1 S2 f f' eps : rises rnd -> sorts_dists srt -> table_fits S2 ->
  (forall i i' j j', f i i' j j' = true -> f' i i' j j' = true) ->
  forall p p' q q' u v, build_edges_r rnd srt p S1 S2 eps f = Ok (Ret q) -> edges_fit q -> build_edges_r rnd srt p' S1 S2 eps f' = Ok (Ret q') -> edges_fit q' ->
  neighbour q u v -> neighbour q' u v.
Proof.
  intros Hr Hs HT Hf p p' q q' u v E HF E' HF' N.
  refine (build_grows srt S1 S2 Hs rnd Hr HT f f' eps eps p p' q q' E HF E' HF' Hf _ u v N). intros i i' _. lia.
Qed.

Lemma compatible_grows q q' n2 a b : (forall u v, neighbour q u v -> neighbour q' u v) -> compatible q n2 a b -> compatible q' n2 a b.
Proof. intros H C k l K L N. apply H, C; auto. Qed.

