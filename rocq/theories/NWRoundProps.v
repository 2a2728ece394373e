(** NWRoundProps: the search and the weights of a node-weighted graph when sums are rounded to nearest (C72). *)
From Verif Require Import Base MUtils MGraph MApi MNW MNWEnum MNWApi Spec SpecNW BaseFacts ConstructFacts LoadFacts SpecRound RoundFacts NWFacts NWRoundFacts NWProps.
Local Open Scope nat_scope.

Lemma grid_rises_exact rnd w : nearest rnd -> on_grid w -> rises rnd /\ sums_exact rnd w.
Proof. intros N G. split; [apply round_rises; exact N|apply grid_sums; auto]. Qed.

Lemma round_heaviest rnd p n adj w : nearest rnd -> on_grid w -> nmade rnd p n adj w -> has_edge adj -> nstorage_live p -> nonnegative w ->
  forall q e lb ub heur, nrested rnd n adj w p q -> npermutes e -> all_within n adj w ub ->
  ends_with (nw_get_max_clique rnd e q lb ub heur true) (fun '(q', r) => match r with
     | Ret c => all_within n adj w (weight w c)
     | Raise x => x = EBounds /\ all_within n adj w lb
     end).
Proof. intros N G MK HE LV NN. exact (nw_heaviest rnd p n adj w MK HE LV (grid_sums rnd w N G) NN). Qed.

Lemma round_complete rnd p n adj w : nearest rnd -> on_grid w -> nmade rnd p n adj w -> has_edge adj -> nstorage_live p -> nonnegative w ->
  forall q e T lr, nunhurried rnd n adj w p q -> exists en q' en' l, nw_all_cliques e q T = Ret en
    /\ (forall fuel, length l < fuel -> nw_drain rnd fuel lr q en = Ok (q', en', l))
    /\ forall d v, heavy_minimal n adj w T d v -> v <> 1 -> In d l.
Proof.
  intros N G MK HE LV NN q e T lr. exact (nw_all_complete rnd p n adj w MK HE LV (grid_sums rnd w N G) NN q e T lr (round_rises rnd N)).
Qed.

(** ** The weight reported for a list *)
Section Error.
  Variables (rnd : Z -> Z) (n : nat) (w : list Z).
  Hypothesis Hn : nearest rnd.
  Hypothesis NN : nonnegative w.
  Hypothesis LW : length w = n.
  Notation near k x s := (0 <= x /\ (2 ^ 53 - 1) ^ k * s <= (2 ^ 53) ^ k * x <= (2 ^ 53 + 1) ^ k * s)%Z.

  Lemma vweight_nonneg v : (0 <= vweight w v)%Z.
  Proof. destruct (vweight_in w v) as [->|I]; [lia|apply NN; auto]. Qed.

  Lemma near_step k x s v : (0 <= k)%Z -> (0 <= s)%Z -> (0 <= v)%Z -> near k x s -> near (Z.succ k) (rnd (x + v)) (s + v)%Z.
  Proof.
    intros K S0 V (X & L & U). pose proof (round_error rnd Hn (x + v)) as E. rewrite (Z.abs_eq (x + v)) in E by lia.
    assert (R0 : (0 <= rnd (x + v))%Z).
    { apply (round_above rnd Hn); [apply small_double; vm_compute; discriminate|lia]. }
    split; auto. rewrite !Z.pow_succ_r by auto.
    assert (B : ((2 ^ 53 - 1) * (x + v) <= 2 ^ 53 * rnd (x + v) <= (2 ^ 53 + 1) * (x + v))%Z) by lia.
    set (D := (2 ^ 53)%Z) in *. assert (HD : (1 < D)%Z) by reflexivity.
    set (a := ((D - 1) ^ k)%Z) in *. set (b := (D ^ k)%Z) in *. set (c := ((D + 1) ^ k)%Z) in *.
    assert (P : (0 <= a <= b /\ b <= c)%Z).
    { subst a b c. split; [split|]; [apply Z.pow_nonneg; lia|apply Z.pow_le_mono_l; lia|apply Z.pow_le_mono_l; lia]. }
    set (y := rnd (x + v)) in *. clearbody D a b c y.
    assert (V1 : (a * v <= b * v /\ b * v <= c * v)%Z) by (split; apply Z.mul_le_mono_nonneg_r; lia).
    assert (B1 : (b * ((D - 1) * (x + v)) <= b * (D * y) /\ b * (D * y) <= b * ((D + 1) * (x + v)))%Z) by (split; apply Z.mul_le_mono_nonneg_l; lia).
    assert (L1 : ((D - 1) * (a * s + a * v) <= (D - 1) * (b * x + b * v))%Z) by (apply Z.mul_le_mono_nonneg_l; lia).
    assert (U1 : ((D + 1) * (b * x + b * v) <= (D + 1) * (c * s + c * v))%Z) by (apply Z.mul_le_mono_nonneg_l; lia).
    split; lia.
  Qed.

  Lemma near_skip k x s : (0 <= k)%Z -> (0 <= s)%Z -> near k x s -> near (Z.succ k) x s.
  Proof.
    intros K S0 (X & L & U). split; auto. rewrite !Z.pow_succ_r by auto.
    set (D := (2 ^ 53)%Z) in *. assert (HD : (1 < D)%Z) by reflexivity.
    set (a := ((D - 1) ^ k)%Z) in *. set (b := (D ^ k)%Z) in *. set (c := ((D + 1) ^ k)%Z) in *.
    assert (P : (0 <= a /\ 0 <= b /\ 0 <= c)%Z) by (subst a b c; repeat split; apply Z.pow_nonneg; lia).
    clearbody D a b c.
    assert (L1 : ((D - 1) * (a * s) <= (D - 1) * (b * x))%Z) by (apply Z.mul_le_mono_nonneg_l; lia).
    assert (U1 : ((D + 1) * (b * x) <= (D + 1) * (c * s))%Z) by (apply Z.mul_le_mono_nonneg_l; lia).
    assert (P1 : (0 <= b * x)%Z) by (apply Z.mul_nonneg_nonneg; lia).
    split; lia.
  Qed.

  Lemma clique_weight_near W c : n_vert (w_g W) = n + 1 -> w_wt W = 0%Z :: w ->
    exists x, nw_clique_weight rnd W c = Ok x /\ near (Z.of_nat (length c)) x (weight w c).
  Proof.
    intros E1 E2. unfold nw_clique_weight. rewrite E1, E2.
    assert (G : forall c k x s, (0 <= k)%Z -> (0 <= s)%Z -> near k x s ->
       exists y, foldM (fun v wt => if v <? n + 1 then x <- rd (0%Z :: w) v;; Ok (rnd (wt + x)%Z) else Ok wt) c x = Ok y
         /\ near (k + Z.of_nat (length c)) y (s + weight w c)).
    { clear c. induction c as [|v c IH]; intros k x s K S0 H; cbn [foldM weight length].
      - exists x. split; auto. replace (k + Z.of_nat 0)%Z with k by lia. replace (s + 0)%Z with s by lia. auto.
      - replace (k + Z.of_nat (S (length c)))%Z with (Z.succ k + Z.of_nat (length c))%Z by lia.
        replace (s + (vweight w v + weight w c))%Z with (s + vweight w v + weight w c)%Z by lia.
        pose proof (vweight_nonneg v) as V.
        destruct (Nat.ltb_spec v (n + 1)) as [L|L].
        + assert (EV : rd (0%Z :: w) v = Ok (vweight w v)) by (apply rd_some; unfold vweight; apply nth_error_nth'; cbn [length]; lia).
          rewrite EV. cbn [bind]. apply IH; [lia|lia|]. apply near_step; auto.
        + cbn [bind]. apply IH; [lia|lia|]. replace (vweight w v) with 0%Z by (unfold vweight; rewrite nth_overflow by (cbn [length]; lia); reflexivity).
          rewrite Z.add_0_r. apply near_skip; auto. }
    destruct (G c 0%Z 0%Z 0%Z) as (y & Y1 & Y2); [lia|lia|cbn; lia|]. exists y. split; auto.
  Qed.
End Error.

Lemma clique_weight_error rnd p n adj w c : nearest rnd -> nonnegative w -> nmade rnd p n adj w -> 1 <= n ->
  exists x, nw_get_clique_weight rnd p c = Ok (Ret x)
    /\ ((2 ^ 53 - 1) ^ Z.of_nat (length c) * weight w c <= (2 ^ 53) ^ Z.of_nat (length c) * x <= (2 ^ 53 + 1) ^ Z.of_nat (length c) * weight w c)%Z.
Proof.
  intros Hr NN H Hn. destruct (nmade_fresh rnd _ _ _ _ H) as (a & cap & m & GR & LW & W & -> & B & EW & _).
  unfold nw_get_clique_weight, nw_loaded. cbn [q_G q_nvert]. destruct (Nat.eqb_spec n 0); [lia|].
  destruct (clique_weight_near rnd n w Hr NN LW W c (b_nv _ _ _ _ B) EW) as (x & -> & X). exists x. split; [reflexivity|tauto].
Qed.
