(** EqualProps: a NWGraph with equal weights against the Graph with the same edges (C76). *)
From Verif Require Import Base MBits MUtils MGraph MHeur MApi MNW MNWEnum MNWApi MExt Spec SpecNW SpecCont SpecOrder BaseFacts SetFacts RowFacts LoadFacts MEnum SearchProps SearchBase CliqueFacts EnumFacts EnumApi NWSum NWBase NWFacts NWEnumFacts NWEnumApi NWProps OrderFacts NWSame Samples.
From Coq Require Import Sorting.Sorted Sorting.Permutation.
Local Open Scope nat_scope.

Lemma length_remove x d : NoDup d -> In x d -> length (remove Nat.eq_dec x d) = length d - 1.
Proof.
  induction d as [|y d IH]; intros ND Ix; [destruct Ix|]. inversion ND; subst. cbn [remove]. destruct (Nat.eq_dec x y) as [->|N].
  - rewrite notin_remove by auto. cbn [length]. lia.
  - destruct Ix as [|Ix]; [congruence|]. cbn [length]. rewrite IH by auto. destruct d; [destruct Ix|cbn [length]; lia].
Qed.

Section Equal.
  Variables (n : nat) (adj : nat -> nat -> Prop) (u : Z).
  Hypothesis SI : simple n adj.
  Hypothesis Hu : (0 < u)%Z.
  Notation w := (repeat u n).

  Lemma equal_vweight v : 1 <= v <= n -> vweight w v = u.
  Proof. intros H. unfold vweight. destruct v as [|v]; [lia|]. cbn [nth]. rewrite (nth_indep _ 0%Z u) by (rewrite repeat_length; lia). apply nth_repeat. Qed.

  Lemma equal_weight d : (forall v, In v d -> 1 <= v <= n) -> weight w d = (u * Z.of_nat (length d))%Z.
  Proof.
    induction d as [|v d IH]; intros H; cbn [weight length]; [lia|]. rewrite equal_vweight by (apply H; left; auto).
    rewrite IH by (intros; apply H; right; auto). lia.
  Qed.

  Lemma equal_wdegree v k : 1 <= v <= n -> degree adj v k -> wdegree adj w v (u * Z.of_nat (S k))%Z.
  Proof.
    intros Hv (l & ND & I & L). exists (v :: l). split; [constructor; auto; rewrite I; intros A; apply SI in A; lia|].
    split; [intros x; cbn [In]; rewrite I; split; intros [->|A]; auto|]. rewrite equal_weight; [cbn [length]; congruence|].
    intros x [->|A]; auto. apply I in A. apply SI in A. destruct A as [A _]. apply SI in A. lia.
  Qed.

  Lemma equal_degree v x : 1 <= v <= n -> wdegree adj w v x -> exists k, degree adj v k /\ x = (u * Z.of_nat (S k))%Z.
  Proof.
    intros Hv (l & ND & I & ->). assert (Iv : In v l) by (apply I; auto).
    destruct (in_split _ _ Iv) as (l1 & l2 & ->). pose proof (NoDup_remove_1 _ _ _ ND) as N1. pose proof (NoDup_remove_2 _ _ _ ND) as N2.
    exists (length (l1 ++ l2)). split.
    - exists (l1 ++ l2). split; auto. split; auto. intros x. specialize (I x). rewrite in_app_iff in *. cbn [In] in I. split.
      + intros A. assert (x <> v) by (intros ->; exact (N2 A)). destruct I as [I _]. destruct I as [|]; auto; [tauto|congruence].
      + intros A. destruct I as [_ I]. destruct (I (or_intror A)) as [|[E|]]; auto. subst x. apply SI in A. lia.
    - rewrite equal_weight; [rewrite !app_length; cbn [length]; do 2 f_equal; lia|]. intros x A. apply I in A. destruct A as [->|A]; auto.
      apply SI in A. destruct A as [A _]. apply SI in A. lia.
  Qed.

  Lemma equal_starts d v : (forall x, In x d -> 1 <= x <= n) -> starts_at adj w d v <-> opens adj d v.
  Proof.
    intros R. split; intros [I H]; split; auto.
    - intros x dx dv Ix NE Dx Dv. pose proof (H x _ _ Ix NE (equal_wdegree v dv (R v I) Dv) (equal_wdegree x dx (R x Ix) Dx)) as [X|[X Y]].
      + left. nia.
      + right. split; auto. nia.
    - intros x xv xu Ix NE Dv Dx. destruct (equal_degree v xv (R v I) Dv) as (kv & Kv & ->). destruct (equal_degree x xu (R x Ix) Dx) as (kx & Kx & ->).
      destruct (H x kx kv Ix NE Kx Kv) as [X|[-> X]]; [left; nia|right; auto].
  Qed.

  Lemma equal_heavy T k d v : 2 <= k -> (u * (Z.of_nat k - 1) < T <= u * Z.of_nat k)%Z ->
    heavy_minimal n adj w T d v <-> clique n adj d /\ length d = k /\ opens adj d v.
  Proof.
    intros Hk HT. split.
    - intros (C & L & W & S & x & (Ix & NE & _) & X). pose proof C as (SO & R & _). split; auto. split; [|apply equal_starts; auto].
      pose proof (equal_weight d R) as E. rewrite E in W.
      assert (ND : NoDup d) by (apply sorted_nodup; auto).
      pose proof (length_remove x d ND Ix) as LR.
      rewrite equal_weight, LR in X by (intros y Iy; apply R; apply in_remove in Iy; tauto). nia.
    - intros (C & L & O). pose proof C as (SO & R & _). split; auto. split; [lia|]. rewrite (equal_weight d R), L. split; [lia|].
      split; [apply equal_starts; auto|].
      assert (ND : NoDup d) by (apply sorted_nodup; auto).
      assert (X : exists x, ends_at d v x).
      { assert (NE : exists y, In y d /\ y <> v).
        { destruct d as [|y [|z d]]; cbn [length] in L; [lia|lia|]. destruct (Nat.eq_dec y v) as [->|]; [|exists y; split; [left|]; auto].
          exists z. split; [right; left; auto|]. inversion ND; subst. intros ->. apply H1. left. auto. }
        clear - NE. induction d as [|y d IH]; [destruct NE as (y & [] & _)|].
        destruct (existsb (fun z => negb (z =? v)) d) eqn:E.
        - apply existsb_exists in E. destruct E as (z & Iz & NZ). apply negb_true_iff, Nat.eqb_neq in NZ.
          destruct IH as (x & I1 & I2 & I3); [exists z; auto|]. destruct (Nat.eq_dec y v) as [->|NY].
          + exists x. split; [right; auto|]. split; auto. intros t [<-|It] Nt; [congruence|auto].
          + exists (Nat.max x y). split; [destruct (Nat.max_spec x y) as [[_ ->]|[_ ->]]; [left|right]; auto|].
            split; [destruct (Nat.max_spec x y) as [[_ ->]|[_ ->]]; auto|]. intros t [<-|It] Nt; [lia|]. specialize (I3 t It Nt). lia.
        - destruct NE as (z & [->|Iz] & NZ).
          + exists z. split; [left; auto|]. split; auto. intros t [<-|It] Nt; auto. exfalso.
            assert (existsb (fun z => negb (z =? v)) d = true); [|congruence]. apply existsb_exists. exists t. split; auto. apply negb_true_iff, Nat.eqb_neq. auto.
          + exfalso. assert (existsb (fun z => negb (z =? v)) d = true); [|congruence]. apply existsb_exists. exists z. split; auto. apply negb_true_iff, Nat.eqb_neq. auto. }
      destruct X as (x & X). exists x. split; auto. destruct X as (Ix & _).
      pose proof (length_remove x d ND Ix) as LR.
      rewrite equal_weight by (intros y Iy; apply R; apply in_remove in Iy; tauto). rewrite LR, L. right. nia.
  Qed.
End Equal.

(** ** all_cliques *)
Lemma equal_enumerates rnd p p' n adj u : made p n adj -> storage_live p -> nmade rnd p' n adj (repeat u n) -> nstorage_live p' -> has_edge adj ->
  (0 < u)%Z -> sums_exact rnd (repeat u n) -> rises rnd ->
  forall q q' k T lr lr' e, unhurried n adj p q -> nunhurried rnd n adj (repeat u n) p' q' -> 2 <= k -> (u * (Z.of_nat k - 1) < T <= u * Z.of_nat k)%Z ->
  exists q1 en1 en' q1' en1' l, (forall fuel, length l < fuel -> drain fuel lr q (new_enum k) = Ok (q1, en1, l))
    /\ nw_all_cliques e q' T = Ret en' /\ (forall fuel, length l < fuel -> nw_drain rnd fuel lr' q' en' = Ok (q1', en1', l)).
Proof.
  intros M LV M' LV' HE Hu SE MO q q' k T lr lr' e U U' Hk HT. pose proof (made_simple p n adj M) as SI.
  assert (NN : nonnegative (repeat u n)) by (intros x I; apply repeat_spec in I; lia).
  destruct (same_sequence p n adj M LV q lr lr k HE U) as (p1 & enp & q1 & en1 & l & D & DQ).
  destruct (enumerate_fresh p n adj lr k M LV) as (q2 & en2 & l2 & D2 & _ & _ & _ & _ & _ & A2).
  destruct (order_fresh p n adj lr k M LV) as (q3 & en3 & l3 & D3 & S3).
  destruct (drain_same _ _ _ _ _ _ _ _ _ D D2) as (<- & <- & <-). destruct (drain_same _ _ _ _ _ _ _ _ _ D D3) as (<- & <- & <-).
  destruct (nw_lists rnd p' n adj _ M' HE LV' SE MO NN q' e T lr' U') as (en' & q1' & en1' & l' & E' & D' & S' & C').
  destruct (made_fresh p n adj M) as (a & cap & m & g0 & _ & GR & _).
  assert (EQ : l = l').
  { apply (sorted_equal (listed_before adj)); auto.
    - intros x y Ix Iy. apply (A2 Hk) in Ix, Iy. apply (listed_asym a n adj GR); [apply Ix|apply Iy].
    - clear - S' SI Hu Hk HT. induction S' as [|d l S IH F]; constructor; auto. rewrite Forall_forall in *. intros d' I.
      destruct (F d' I) as (v & v' & O & O' & X). exists v, v'. apply (equal_heavy n adj u SI Hu T k) in O, O'; auto. tauto.
    - intros d. rewrite C', (A2 Hk). split.
      + intros (v & NV & H). apply (equal_heavy n adj u SI Hu T k) in H; auto. destruct H as (C & L & I & O). split; auto. split; auto.
        intros (I1 & F). pose proof C as (_ & R & _).
        destruct (O 1 _ _ I1 (not_eq_sym NV) (row_degree a n adj GR 1 ltac:(pose proof (R 1 I1); lia)) (row_degree a n adj GR v ltac:(pose proof (R v I); lia))) as [X|[X Y]].
        * specialize (F v _ _ I (row_degree a n adj GR 1 ltac:(pose proof (R 1 I1); lia)) (row_degree a n adj GR v ltac:(pose proof (R v I); lia))). lia.
        * pose proof (R v I). lia.
      + intros (C & L & NF). assert (NE : d <> []) by (intros ->; cbn [length] in L; lia).
        destruct (clique_rooted a n adj GR d C NE) as (v & K & Hv & I & R & P & E & ED).
        pose proof (rooted_opens a n adj GR v K Hv R P) as O. unfold decode in O. rewrite <- ED in O.
        exists v. split; [|apply (equal_heavy n adj u SI Hu T k); auto]. intros ->. apply NF. destruct O as [O1 O2]. split; auto.
        intros x d1 dx Ix D1 Dx. destruct (Nat.eq_dec x 1) as [->|NX]; [rewrite (degree_fun adj 1 d1 dx D1 Dx); lia|]. pose proof (O2 x dx d1 Ix NX Dx D1). lia. }
  subst l'. exists q1, en1, en', q1', en1', l. auto.
Qed.

(** ** get_max_clique *)
Lemma equal_searches rnd p p' n adj u : made p n adj -> storage_live p -> nmade rnd p' n adj (repeat u n) -> nstorage_live p' -> has_edge adj ->
  (0 < u)%Z -> sums_exact rnd (repeat u n) ->
  forall e e' ub ub' lb' heur heur' cont, permutes e -> untimed e -> npermutes e' -> (forall d, clique n adj d -> length d <= ub) ->
  (lb' < 2 * u)%Z -> all_within n adj (repeat u n) ub' ->
  exists q c q' c', get_max_clique e p 1 ub heur true cont = Ok (q, Ret c) /\ nw_get_max_clique rnd e' p' lb' ub' heur' true = Ok (q', Ret c')
    /\ maximum_clique n adj c /\ maximum_clique n adj c' /\ length c = length c'.
Proof.
  intros M LV M' LV' HE Hu SE e e' ub ub' lb' heur heur' cont PE UE PE' UB LB UB'. pose proof (made_simple p n adj M) as SI.
  assert (NN : nonnegative (repeat u n)) by (intros x I; apply repeat_spec in I; lia).
  destruct (ends_ok _ _ (untimed_max p n adj e ub heur cont M HE LV PE UE UB)) as ([q r] & E & c & Ec & MC). cbn [snd] in Ec. subst r.
  destruct HE as (x & y & A). destruct (SI x y A) as (A' & NE & Hx). destruct (SI y x A') as (_ & _ & Hy).
  assert (C2 : exists d, clique n adj d /\ length d = 2).
  { exists [Nat.min x y; Nat.max x y]. split; auto. split; [|split].
    - repeat constructor. lia.
    - intros z [<-|[<-|[]]]; lia.
    - intros s t [<-|[<-|[]]] [<-|[<-|[]]] N; try congruence; destruct (Nat.le_gt_cases x y);
        rewrite ?(Nat.min_l x y), ?(Nat.max_r x y), ?(Nat.min_r x y), ?(Nat.max_l x y) by lia; auto. }
  destruct C2 as (d2 & C2 & L2).
  assert (HE : has_edge adj) by (exists x, y; auto).
  pose proof (nw_heaviest rnd p' n adj _ M' HE LV' SE NN p' e' lb' ub' heur' (or_introl eq_refl) PE' UB') as W.
  pose proof (nw_clique_positive rnd p' n adj _ M' HE LV' p' e' lb' ub' heur' true SE NN) as W2.
  specialize (W2 ltac:(exists u; split; auto; destruct n; [lia|left; reflexivity]) (nh_start _ _) PE').
  destruct (nw_get_max_clique rnd e' p' lb' ub' heur' true) as [[q' [c'|x']]| |]; cbn [ends_with] in *; try contradiction.
  - destruct W2 as [C' _]. exists q, c, q', c'. split; auto. split; auto.
    assert (MC' : maximum_clique n adj c').
    { split; auto. intros d D. destruct MC as [C MC]. destruct (Nat.le_gt_cases 2 (length d)) as [L|L].
      - specialize (W d D L). rewrite !(equal_weight n u) in W by (apply C' || apply D). nia.
      - specialize (W d2 C2 ltac:(lia)). rewrite !(equal_weight n u) in W by (apply C' || apply C2). nia. }
    split; auto. split; auto. destruct MC as [C MC], MC' as [_ MC']. specialize (MC c' C'). specialize (MC' c C). lia.
  - exfalso. destruct W as [_ W]. specialize (W d2 C2 ltac:(lia)). rewrite (equal_weight n u) in W by apply C2. rewrite L2 in W. nia.
Qed.
