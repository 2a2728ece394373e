(** NWFirstLone: the answer of NWGraph when light vertices without neighbours are added (C104). *)
From Verif Require Import Base MUtils MGraph MApi MNW MNWEnum MNWApi Spec SpecNW SpecNWFirst SpecOrder SpecLone NWProps NWSame NWFirst LoneFacts.
Local Open Scope nat_scope.

Section Light.
  Variables (rnd : Z -> Z) (p p' : pynw) (n n' : nat) (adj adj' : nat -> nat -> Prop) (w w' : list Z).
  Hypothesis PD : padded n n' adj adj'.
  Hypothesis SW : same_weights n w w'.
  Hypothesis M : nmade rnd p n adj w.

  Lemma after_lone v u : 1 <= v <= n -> 1 <= u <= n -> weighs_after adj w v u <-> weighs_after adj' w' v u.
  Proof. intros V U. split; intros H xu xv XU XV; apply H; apply (wdegree_lone rnd p n n' adj adj' w w' PD SW M); auto. Qed.

  Lemma later_lone v x : 1 <= v <= n -> later_weight adj w v x <-> later_weight adj' w' v x.
  Proof.
    intros V. pose proof (nsimple rnd p n adj w M) as SI. destruct PD as [LN EA].
    assert (R : forall u, adj v u -> 1 <= u <= n) by (intros u A; apply SI in A; destruct A as (A & _); apply SI in A; apply A).
    assert (Q : forall u, (u = v \/ adj v u /\ weighs_after adj w v u) <-> (u = v \/ adj' v u /\ weighs_after adj' w' v u)).
    { intros u. split; (intros [-> |(A & B)]; [auto|]); right.
      - split; [apply EA; auto|]. apply (proj1 (after_lone v u V (R u A)) B).
      - apply EA in A. split; auto. apply (proj2 (after_lone v u V (R u A)) B). }
    assert (W : forall l, (forall u, In u l <-> u = v \/ adj v u /\ weighs_after adj w v u) -> weight w l = weight w' l).
    { intros l H. apply (lone_weight n w w' SW). intros u I. apply H in I. destruct I as [-> |(A & _)]; auto. }
    split; intros (l & N & H & <-); exists l; (split; [exact N|]).
    - split; [intros u; rewrite H; apply Q|]. symmetry. auto.
    - assert (H2 : forall u, In u l <-> u = v \/ adj v u /\ weighs_after adj w v u) by (intros u; rewrite H; symmetry; apply Q). split; [exact H2|]. auto.
  Qed.

  Lemma later_alone v x : n < v -> later_weight adj' w' v x -> x = vweight w' v.
  Proof.
    intros V (l & N & H & <-). pose proof (nsimple rnd p n adj w M) as SI. destruct PD as [LN EA].
    assert (Z : forall u, In u l <-> u = v). { intros u. rewrite H. split; [|auto]. intros [->|(A & _)]; auto. apply EA in A. apply SI in A. lia. }
    destruct l as [|a [|b l]].
    - destruct (proj2 (Z v) eq_refl).
    - assert (a = v) as -> by (apply Z; cbn; auto). cbn [weight]. lia.
    - assert (a = v) by (apply Z; cbn; auto). assert (b = v) by (apply Z; cbn; auto). inversion N as [|? ? NI]; subst. exfalso. apply NI. cbn. auto.
  Qed.

  (** Every new vertex weighs at most as much as some old one with its later neighbours. *)
  Hypothesis LI : forall v, n < v <= n' -> exists u x, 1 <= u <= n /\ later_weight adj w u x /\ (vweight w' v <= x)%Z.

  Lemma weightiest_lone s : weightiest n adj w s -> weightiest n' adj' w' s.
  Proof.
    intros (R & x & X1 & X2 & X3). destruct PD as [LN _]. split; [lia|]. exists x. split; [apply (later_lone s); auto|]. split.
    - intros v y V Y. destruct (Nat.le_gt_cases v n) as [L|L]; [apply (X2 v); [lia|]; apply later_lone; auto; lia|].
      rewrite (later_alone v y L Y). destruct (LI v ltac:(lia)) as (u & z & U & Z & ZL). specialize (X2 u z U Z). lia.
    - intros v y V Y. apply (X3 v); auto. apply later_lone; auto. lia.
  Qed.
End Light.

Lemma lone_nw_search rnd p p' n n' adj adj' w w' : padded n n' adj adj' -> same_weights n w w' -> nmade rnd p n adj w -> nmade rnd p' n' adj' w' ->
  has_edge adj -> nstorage_live p -> nstorage_live p' -> sums_exact rnd w -> sums_exact rnd w' -> nonnegative w -> nonnegative w' ->
  (forall v, n < v <= n' -> exists u x, 1 <= u <= n /\ later_weight adj w u x /\ (vweight w' v <= x)%Z) ->
  forall e e' lb lb' ub ub' q q' c c', npermutes e -> npermutes e' -> all_within n adj w ub -> all_within n' adj' w' ub' ->
  nw_get_max_clique rnd e p lb ub false true = Ok (q, Ret c) -> nw_get_max_clique rnd e' p' lb' ub' false true = Ok (q', Ret c') ->
  2 <= length c -> 2 <= length c' -> c = c'.
Proof.
  intros PD SW M M' HE LV LV' SE SE' NN NN' LI e e' lb lb' ub ub' q q' c c' HP HP' AW AW' E E' L L'.
  pose proof (lone_edge n n' adj adj' PD HE) as HE'. pose proof (nsimple rnd p n adj w M) as SI.
  destruct (nw_first rnd p n adj w e lb ub q c M HE LV SE NN HP AW E L) as (C & AC & _ & s & S & H).
  destruct (nw_first rnd p' n' adj' w' e' lb' ub' q' c' M' HE' LV' SE' NN' HP' AW' E' L') as (C' & AC' & _ & s' & S' & H').
  pose proof (weightiest_lone rnd p n n' adj adj' w w' PD SW M LI s S) as S2. pose proof (weightiest_one n' adj' w' s s' S2 S') as <-.
  pose proof (padded_down n n' adj adj' PD SI c' C' L') as D'. pose proof (padded_up n n' adj adj' PD c C) as D.
  assert (EQ : weight w c = weight w c').
  { pose proof (AC c' D' L') as K. pose proof (AC' c D L) as K'. rewrite <- (lone_weight n w w' SW c), <- (lone_weight n w w' SW c') in K' by (apply C || apply D'). lia. }
  destruct (list_eq_dec Nat.eq_dec c c') as [|NE]; auto. exfalso. apply (found_asym rnd p n adj w s c c' M C D').
  - apply H; auto.
  - assert (EQ' : weight w' c = weight w' c') by (rewrite <- (lone_weight n w w' SW c), <- (lone_weight n w w' SW c') by (apply C || apply D'); exact EQ).
    destruct (H' c D L EQ' NE) as (v & v' & O & O' & X). exists v, v'.
    rewrite (starts_lone rnd p n n' adj adj' w w' PD SW M c' v) by apply D'. rewrite (starts_lone rnd p n n' adj adj' w w' PD SW M c v') by apply C. auto.
Qed.
