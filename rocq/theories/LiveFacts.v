(** LiveFacts: when loading does not reallocate the bitset storage (C13). *)
From Verif Require Import Base MBits MUtils MGraph MApi Spec SpecBits BaseFacts BitsFacts SetFacts SortFacts RadixFacts RowFacts ConstructFacts CardFacts LoadFacts ExportFacts.
From Coq Require Import Sorting.Sorted.
Local Open Scope nat_scope.
Local Arguments Nat.sub : simpl never.
Local Arguments Nat.mul : simpl never.

Lemma psum_ge f n d : (forall k, k < n -> 1 <= f k) -> n + d * card n (fun k => d + 1 <=? f k) <= psum f n.
Proof.
  induction n as [|n IH]; intros H; cbn [psum].
  - rewrite card_0. lia.
  - specialize (IH ltac:(intros; apply H; lia)). specialize (H n ltac:(lia)). rewrite card_S.
    destruct (Nat.leb_spec (d + 1) (f n)); lia.
Qed.

Lemma psum_off a n : psum (fun k => length (row a k)) n = off a n.
Proof. induction n as [|n IH]; cbn [psum]; [rewrite off_0; auto|]. rewrite IH, off_S. auto. Qed.

Lemma psum_const f n : (forall k, k < n -> f k = 1) -> psum f n = n.
Proof. induction n as [|n IH]; intros H; cbn [psum]; auto. rewrite IH, H by (auto; intros; apply H; lia). lia. Qed.

Section Live.
  Variables (a : pairs) (n : nat) (adj : nat -> nat -> Prop).
  Hypothesis HG : gra a n adj.
  Let HS := gr_sorted _ _ _ HG.
  Let Hself := gra_self _ _ _ HG.
  Let Hb := gra_b _ _ _ HG.

  (** A vertex with d later neighbours has d + 1 vertices of degree >= d around it. *)
  Lemma many_big i : i < n + 1 ->
    bound a i <= card (n + 1) (fun k => bound a i - 1 + 1 <=? length (row a k)).
  Proof.
    intros Hi. set (d := bound a i - 1).
    assert (B : bound a i = S (length (sel (length (row a i)) (candp a i)))) by reflexivity.
    destruct (sp_spec a (n + 1) HS Hself i Hi) as [S1 S2].
    set (L := i :: map (fun j => nth j (row a i) 0) (sel (length (row a i)) (candp a i))).
    assert (LE : length (sel (length (row a i)) (candp a i)) < length (row a i)).
    { pose proof (card_add (length (row a i)) (candp a i) (sp a i) S1 (candp_sp a (n + 1) HS Hself i Hi)) as C.
      pose proof (card_bound (length (row a i)) (fun j => (j =? sp a i) || candp a i j)). unfold card in *. lia. }
    assert (BF : forall e, candp a i e = true -> length (row a i) <= length (row a (nth e (row a i) 0))).
    { intros e He. unfold candp, before in He. apply orb_prop in He. destruct He as [He|He].
      - apply Nat.ltb_lt in He. lia.
      - apply andb_prop in He. destruct He as [He _]. apply Nat.eqb_eq in He. lia. }
    replace (bound a i) with (length L) at 1 by (unfold L; simpl; rewrite map_length; auto).
    rewrite <- (card_list (n + 1) L).
    - apply card_le. intros k Hk I. apply inb_in in I. apply Nat.leb_le. unfold L in I. destruct I as [<-|I]; [lia|].
      apply in_map_iff in I. destruct I as (j & <- & I). apply sel_in in I. destruct I as [_ I]. specialize (BF j I). lia.
    - unfold L. constructor.
      + intros I. apply in_map_iff in I. destruct I as (j & E & I). apply sel_in in I. destruct I as [_ I]. unfold candp in I. rewrite E in I. rewrite before_irrefl in I. discriminate.
      + assert (forall l, NoDup l -> (forall x, In x l -> x < length (row a i)) -> NoDup (map (fun j => nth j (row a i) 0) l)) as K.
        { induction l as [|x l IH]; intros N H; simpl; constructor; inversion N; subst; auto.
          - intros I. apply in_map_iff in I. destruct I as (y & E & I). apply sorted_nth_inj in E; [subst; auto|apply row_sorted, HS| |]; apply H; simpl; auto.
          - apply IH; auto. intros y I. apply H. right; auto. }
        apply K; [apply sorted_nodup, sel_sorted|]. intros x I. apply sel_in in I. tauto.
    - intros x [<-|I]; [auto|]. apply in_map_iff in I. destruct I as (j & <- & I). apply sel_in in I.
      apply (nb_lt a (n + 1) Hb i). apply nth_In. tauto.
  Qed.

  Lemma edges_len l : (forall u v, In (u, v) l -> u < v /\ adj u v) -> NoDup l -> n + 1 + 2 * length l <= length a.
  Proof.
    intros HL ND.
    replace (n + 1 + 2 * length l) with (length (map (fun i => (i, i)) (seq 0 (n + 1)) ++ l ++ map swap l))
      by (rewrite !app_length, !map_length, seq_length; lia).
    apply NoDup_incl_length.
    - apply nodup_app; [| |].
      + apply FinFun.Injective_map_NoDup; [intros x y E; congruence|apply seq_NoDup].
      + apply nodup_app; auto.
        * apply FinFun.Injective_map_NoDup; auto. intros [x y] [x' y'] E. unfold swap in E. simpl in E. congruence.
        * intros [x y] I J. apply HL in I. apply in_map_iff in J. destruct J as ([x' y'] & E & J). apply HL in J. unfold swap in E. simpl in E. inversion E. lia.
      + intros [x y] I J. apply in_map_iff in I. destruct I as (i & E & _). inversion E; subst.
        apply in_app_iff in J. destruct J as [J|J]; [apply HL in J; lia|]. apply in_map_iff in J. destruct J as ([x' y'] & E' & J).
        apply HL in J. unfold swap in E'. simpl in E'. inversion E'. lia.
    - intros [x y] I. apply in_app_iff in I. destruct I as [I|I]; [|apply in_app_iff in I; destruct I as [I|I]].
      + apply in_map_iff in I. destruct I as (i & E & J). inversion E; subst. apply Hself. apply in_seq in J. lia.
      + apply HL in I. apply (proj1 (gra_adj _ _ _ x y HG)). tauto.
      + apply in_map_iff in I. destruct I as ([x' y'] & E & J). unfold swap in E. simpl in E. inversion E; subst. apply HL in J. destruct J as [J1 J2].
        apply (proj1 (gra_adj _ _ _ x y HG)). destruct (gr_simple _ _ _ HG _ _ J2) as (J3 & _). exact J3.
  Qed.

  Lemma live_small cap g l : built a (n + 1) cap g ->
    (forall k, k < n + 1 -> length (row a k) <= 64) ->
    (forall u v, In (u, v) l -> u < v /\ adj u v) -> NoDup l -> 5 <= length l -> bits_live g = true.
  Proof.
    intros B HD HL ND H5. apply (b_live_fit _ _ _ _ B).
    pose proof (edges_len l HL ND) as E1.
    assert (E2 : eb a (n + 1) = n + 1).
    { apply psum_const. intros k Hk. apply words_small. split; [apply (len_pos a (n + 1) HS Hself); auto|apply HD; auto]. }
    destruct (b_degx _ _ _ _ B ltac:(lia)) as (k & Hk & Ek). rewrite <- Ek.
    rewrite (words_small (length (row a k))) by (split; [apply (len_pos a (n + 1) HS Hself); auto|apply HD; auto]).
    destruct (b_loc _ _ _ _ B ltac:(lia)) as (Hl & El). rewrite <- El.
    set (i := CUR_MAX_LOC g) in *. pose proof (many_big i Hl) as MB.
    pose proof (psum_ge (fun k => length (row a k)) (n + 1) (bound a i - 1)) as PG.
    rewrite psum_off, (off_end a (n + 1) Hb) in PG. specialize (PG ltac:(intros; apply (len_pos a (n + 1) HS Hself); auto)).
    assert (BP : 1 <= bound a i) by (unfold bound; lia).
    set (d := bound a i - 1) in *. assert (bound a i = d + 1) as Ed by lia. rewrite E2, Ed.
    assert (d * (d + 1) <= d * card (n + 1) (fun k => d + 1 <=? length (row a k))) by (apply Nat.mul_le_mono_l; lia).
    destruct (Nat.le_gt_cases d 2); [lia|]. nia.
  Qed.

  Lemma eb_le k : 64 * eb a k <= 63 * k + off a k.
  Proof.
    unfold eb. induction k as [|k IH]; cbn [psum]; [lia|]. rewrite off_S. pose proof (words_bounds (length (row a k))). lia.
  Qed.

  (** Larger degrees need more edges. *)
  Lemma live_degrees cap g l D : built a (n + 1) cap g ->
    (forall k, k < n + 1 -> length (row a k) <= D + 1) -> 64 <= D -> (D + 64) * (D + 64) <= 1024 * length l ->
    (forall u v, In (u, v) l -> u < v /\ adj u v) -> NoDup l -> bits_live g = true.
  Proof.
    intros B HD H64 HQ HL ND. apply (b_live_fit _ _ _ _ B).
    pose proof (edges_len l HL ND) as E1.
    pose proof (eb_le (n + 1)) as E2. rewrite (off_end a (n + 1) Hb) in E2.
    destruct (b_degx _ _ _ _ B ltac:(lia)) as (k & Hk & Ek). pose proof (words_bounds (max_degree g)) as E3. specialize (HD k Hk). rewrite Ek in HD.
    destruct (b_loc _ _ _ _ B ltac:(lia)) as (Hl & El). rewrite <- El.
    set (i := CUR_MAX_LOC g) in *. pose proof (many_big i Hl) as MB.
    pose proof (psum_ge (fun k => length (row a k)) (n + 1) (bound a i - 1)) as PG.
    rewrite psum_off, (off_end a (n + 1) Hb) in PG. specialize (PG ltac:(intros; apply (len_pos a (n + 1) HS Hself); auto)).
    assert (BP : 1 <= bound a i) by (unfold bound; lia).
    set (d := bound a i - 1) in *. assert (bound a i = d + 1) as Ed by lia. rewrite Ed.
    assert (E4 : d * (d + 1) <= d * card (n + 1) (fun k => d + 1 <=? length (row a k))) by (apply Nat.mul_le_mono_l; lia).
    set (W := words (max_degree g)) in *. set (e := eb a (n + 1)) in *. set (A := length a) in *.
    assert (E5 : 64 * W <= D + 64) by lia.
    assert (E6 : 128 * ((d + 2) * W) <= 2 * ((d + 2) * (D + 64))) by nia.
    remember (A - (n + 1)) as T eqn:ET. assert (ET' : A = n + 1 + T) by lia.
    assert (E7 : (D + 64) * (D + 64) <= 512 * T) by lia.
    assert (E8 : d * (d + 1) <= T) by lia.
    assert (E9 : 44 * ((d + 2) * (D + 64)) <= 484 * ((d + 2) * (d + 2)) + (D + 64) * (D + 64)).
    { clear. destruct (Nat.le_gt_cases (22 * (d + 2)) (D + 64)); nia. }
    assert (E10 : 32 <= T) by nia.
    assert (E11 : 3344 + 1452 * d < 390 * T). { clear - E8 E10. destruct (Nat.le_gt_cases d 5); nia. }
    replace (d + 1 + 1) with (d + 2) by lia. nia.
  Qed.
End Live.

Lemma made_live p n adj l D : made p n adj ->
  (forall v, v <= n -> ends_with (vertex_neighbors p v) (fun r => exists nb, r = Ret nb /\ length nb <= D)) ->
  (forall u v, In (u, v) l -> u < v /\ adj u v) -> NoDup l -> 5 <= length l -> (64 <= D -> (D + 64) * (D + 64) <= 1024 * length l) -> storage_live p.
Proof.
  intros M HD HL ND H5 HQ. destruct (made_fresh _ _ _ M) as (a & cap & m & g & -> & G & B).
  assert (HR : forall k, k < n + 1 -> length (row a k) <= D + 1); [|
    exists g; split; auto; destruct (Nat.le_gt_cases 64 D) as [L|L]; [apply (live_degrees a n adj G cap g l D); auto|
      apply (live_small a n adj G cap g l); auto; intros k Hk; specialize (HR k Hk); lia]].
  intros k Hk. specialize (HD k ltac:(lia)). unfold vertex_neighbors in HD. cbn [p_nvert p_G] in HD.
  destruct (Nat.ltb_spec n k); [lia|].
  rewrite (vertex_data_spec a n adj G g k (shaped_built a n cap g B) ltac:(lia)) in HD. cbn [bind ends_with] in HD.
  destruct HD as (nb & E & L). inversion E; subst. clear E.
  assert (SS : NoDup (row a k)) by (apply sorted_nodup, row_sorted, (gr_sorted _ _ _ G)).
  pose proof (filter_split_len (fun x => negb (x =? k)) (row a k)) as F.
  assert (length (filter (fun x => negb (negb (x =? k))) (row a k)) <= 1); [|lia].
  change 1 with (length [k]). apply NoDup_incl_length; [apply NoDup_filter; auto|].
  intros x I. apply filter_In in I. destruct I as [_ I]. rewrite negb_involutive in I. apply Nat.eqb_eq in I. left. auto.
Qed.
