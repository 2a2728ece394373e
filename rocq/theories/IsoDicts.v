(** IsoDicts: exactly what isograph.py's _format_correspondence returns (C51). *)
From Verif Require Import Base BaseFacts MBits MUtils MGraph MHeur MStack MRec MEnum MApi MExt MPy Spec SpecDec SpecIso LoadProps ExtFacts IsoFacts SearchProps Samples ExtProps ExtSamples.
Local Open Scope nat_scope.

Lemma dget_in {V} (d : list (nat * V)) k v : dget d k = Some v -> In (k, v) d.
Proof.
  induction d as [|(x, y) d IH]; cbn [dget]; [discriminate|]. destruct (Nat.eqb_spec x k) as [->|N].
  - intros E. injection E as ->. left. reflexivity.
  - intros E. right. auto.
Qed.

Lemma v2_inv_none im z : (exists x, In x z /\ dget im x = None) -> v2_inv im z = Raise EKeyError.
Proof.
  induction z as [|w z IH]; intros (x & I & D); [destruct I|]. cbn [v2_inv]. destruct I as [->|I]; [rewrite D; auto|].
  destruct (dget im w); auto. rewrite IH; eauto.
Qed.

Lemma v2_inv_cases im z : (exists l, v2_inv im z = Ret l) \/ v2_inv im z = Raise EKeyError.
Proof.
  induction z as [|w z IH]; cbn [v2_inv]; [eauto|]. destruct (dget im w); auto.
  destruct IH as [(l & ->)| ->]; eauto.
Qed.

Lemma fill_graphs_stray s2 n2 adj2 v2 im (M2 : made s2 n2 adj2) a : forall b G1 G2, length a = length b -> (forall y, In y b -> y <= n2) ->
  (exists y z, In y b /\ In z v2 /\ adj2 y z /\ dget im z = None) -> fill_graphs s2 v2 im a b G1 G2 = Ok (Raise EKeyError).
Proof.
  induction a as [|x a IH]; intros [|y b] G1 G2 L R (y0 & z & Iy & Iz & A & D); try discriminate; [destruct Iy|].
  cbn [length] in L. cbn [fill_graphs].
  pose proof (made_neighbors s2 n2 adj2 y M2 (R y (or_introl eq_refl))) as W. apply wp_iff in W. destruct W as (r & -> & l & -> & _ & I). cbn [bind].
  set (nb := filter (fun z => existsb (Nat.eqb z) v2) l). destruct Iy as [->|Iy].
  - rewrite v2_inv_none; auto. exists z. split; auto. unfold nb. rewrite filter_In, existsb_exists, I. split; auto.
    exists z. split; auto. apply Nat.eqb_refl.
  - destruct (v2_inv_cases im nb) as [(l' & ->)| ->]; auto. apply IH; [lia|intros; apply R; right; auto|]. eauto 6.
Qed.

Section Exact.
  Variables (s2 : pygraph) (n2 : nat) (adj2 : nat -> nat -> Prop).
  Hypothesis M2 : made s2 n2 adj2.
  Variables a b : list nat.
  Hypothesis L : length a = length b.
  Hypothesis NA : NoDup a.
  Hypothesis NB : NoDup b.
  Hypothesis R : forall y, In y b -> 1 <= y <= n2.

  Lemma inverse_keys m i : fill_maps a b [] [] = (m, i) -> forall z, ~ In z b -> dget i z = None.
  Proof. intros E z N. destruct (fill_maps_spec a b [] [] L NA NB) as (m' & i' & E' & _ & _ & U). rewrite E in E'. injection E' as -> ->. rewrite U; auto. Qed.

  Lemma format_stray : stray adj2 a b -> format_correspondence s2 a b = Ok (Raise EKeyError).
  Proof.
    intros (y & z & Iy & A & Iz & N). unfold format_correspondence. destruct (fill_maps a b [] []) as [m i] eqn:E.
    rewrite (fill_graphs_stray s2 n2 adj2 a i M2); auto.
    - intros y' I. apply R in I. lia.
    - exists y, z. repeat split; auto. eapply inverse_keys; eauto.
  Qed.

  (** The exact contents. *)
  Lemma format_contents : ~ stray adj2 a b ->
    exists G1 G2 m, format_correspondence s2 a b = Ok (Ret (G1, G2, m))
      /\ (forall k, k < length a -> dget m (nth k a 0) = Some (nth k b 0)
            /\ (exists l, dget G2 (nth k b 0) = Some l /\ forall z, In z l <-> In z a /\ adj2 (nth k b 0) z)
            /\ (exists l, dget G1 (nth k a 0) = Some l
                 /\ forall x, In x l <-> exists t, t < length a /\ x = nth t a 0 /\ In (nth t b 0) a /\ adj2 (nth k b 0) (nth t b 0)))
      /\ (forall x, ~ In x a -> dget m x = None /\ dget G1 x = None) /\ (forall y, ~ In y b -> dget G2 y = None).
  Proof.
    intros NS. destruct (fill_maps_spec a b [] [] L NA NB) as (m & i & Em & Km & Um & _).
    assert (INV : forall y z, In y b -> In z a -> adj2 y z -> In z b).
    { intros y z Iy Iz A. destruct (in_dec Nat.eq_dec z b) as [I|N]; auto. exfalso. apply NS. exists y, z. auto. }
    destruct (fill_graphs_spec s2 n2 adj2 M2 a i a b [] []) as (G1 & G2 & E & K & U1 & U2); auto.
    { intros y I. apply R in I. lia. }
    { intros y z Iy I A. pose proof (INV y z Iy I A) as J. destruct (In_nth b z 0 J) as (k & Hk & <-). exists (nth k a 0). apply Km. lia. }
    exists G1, G2, m. unfold format_correspondence. rewrite Em, E. split; auto. split; [|split].
    - intros k Hk. split; [apply Km; auto|]. destruct (K k Hk) as (l & l' & E1 & N1 & E2 & N2). split.
      + exists l. split; auto.
      + exists l'. split; auto. intros x. rewrite (N2 x). split.
        * intros (z & I & A & D). assert (J : In z b) by (apply (INV (nth k b 0)); auto; apply nth_In; lia).
          destruct (In_nth b z 0 J) as (t & Ht & <-). exists t.
          rewrite (proj2 (Km t ltac:(lia))) in D. injection D as <-. repeat split; auto; lia.
        * intros (t & Ht & -> & I & A). exists (nth t b 0). repeat split; auto. apply Km. auto.
    - intros x N. rewrite Um, U1; auto.
    - intros y N. rewrite U2; auto.
  Qed.

  (** [a], [b]: matched vertices such that edges of graph 2 are edges of graph 1. The dictionaries are right if and only if
      the numbers agree and graph 1 has no more edges among the matched vertices. *)
  Lemma format_right n1 adj1 : embedding n1 adj1 n2 adj2 a b ->
    ((exists G1 G2 m, format_correspondence s2 a b = Ok (Ret (G1, G2, m)) /\ describes adj1 adj2 a b G1 G2 m)
     <-> same_numbers adj2 a b /\ no_more_edges adj1 adj2 a b).
  Proof.
    intros (_ & _ & _ & _ & _ & EMB).
    assert (POS : forall x, In x a -> exists k, k < length a /\ x = nth k a 0) by (intros x I; destruct (In_nth a x 0 I) as (k & ? & <-); eauto).
    assert (POSB : forall x, In x b -> exists k, k < length a /\ x = nth k b 0) by (intros x I; destruct (In_nth b x 0 I) as (k & ? & <-); exists k; split; auto; lia).
    split.
    - intros (G1 & G2 & m & E & DM & _ & D1 & _ & D2 & _).
      assert (NS : ~ stray adj2 a b) by (intros ST; rewrite (format_stray ST) in E; discriminate).
      destruct (format_contents NS) as (G1' & G2' & m' & E' & K & _). rewrite E in E'. injection E' as <- <- <-.
      assert (SN : same_numbers adj2 a b).
      { intros y z Iy A. destruct (POSB y Iy) as (k & Hk & ->). destruct (K k Hk) as (_ & (l & El & Il) & _).
        destruct (D2 _ Iy) as (l2 & El2 & Il2). rewrite El in El2. injection El2 as <-. split.
        - intros Iz. apply Il2, Il. auto.
        - intros Iz. apply Il, Il2. auto. }
      split; auto. intros k t Hk Ht A. destruct (K k Hk) as (_ & _ & (l & El & Il)).
      destruct (D1 (nth k a 0) ltac:(apply nth_In; lia)) as (l1 & El1 & Il1). rewrite El in El1. injection El1 as <-.
      assert (I : In (nth t a 0) l) by (apply Il1; split; [apply nth_In; lia|auto]). apply Il in I.
      destruct I as (t' & Ht' & Eq & _ & A'). assert (t = t') by (apply (proj1 (NoDup_nth a 0)); auto). subst. auto.
    - intros (SN & NM).
      assert (NS : ~ stray adj2 a b) by (intros (y & z & Iy & A & Iz & N); apply N, (SN y z); auto).
      destruct (format_contents NS) as (G1 & G2 & m & E & K & U1 & U2). exists G1, G2, m. split; auto.
      split; [intros k Hk; apply K; auto|]. split; [intros x N; apply U1; auto|].
      split; [|split; [intros x N; apply U1; auto|split; [|auto]]].
      + intros x I. destruct (POS x I) as (k & Hk & ->). destruct (K k Hk) as (_ & _ & (l & El & Il)). exists l. split; auto.
        intros x'. rewrite Il. split.
        * intros (t & Ht & -> & _ & A). split; [apply nth_In; auto|apply EMB; auto].
        * intros (Ix & A). destruct (POS x' Ix) as (t & Ht & ->). exists t. pose proof (NM k t Hk Ht A) as A2. repeat split; auto.
          apply (SN (nth k b 0)); auto; apply nth_In; lia.
      + intros y I. destruct (POSB y I) as (k & Hk & ->). destruct (K k Hk) as (_ & (l & El & Il) & _). exists l. split; auto.
        intros z. rewrite Il. split; intros (Iz & A); split; auto; apply (SN (nth k b 0) z); auto.
  Qed.
End Exact.

Lemma iso_dicts s1 s2 q n1 n2 adj1 adj2 : made s1 n1 adj1 -> made s2 n2 adj2 ->
  build_edges_for_iso new_pygraph s1 s2 = Ok (Ret q) -> edges_fit q -> storage_live q ->
  forall q' e lb ub heur dfs cont, (exists u v, neighbour q u v) -> history q q' -> lawful e lb ->
  ends_with (iso_get_correspondence e q' s2 lb ub heur dfs cont) (fun r => exists d,
    iso_get_dicts e q' s2 lb ub heur dfs cont = Ok (fst r, d)
    /\ match snd r with
       | Raise x => d = Raise x
       | Ret (a, b) =>
           (stray adj2 a b -> d = Raise EKeyError)
           /\ (~ stray adj2 a b -> exists G1 G2 m, d = Ret (G1, G2, m))
           /\ ((exists G1 G2 m, d = Ret (G1, G2, m) /\ describes adj1 adj2 a b G1 G2 m) <-> same_numbers adj2 a b /\ no_more_edges adj1 adj2 a b)
       end).
Proof.
  intros M1 M2 E HF LV q' e lb ub heur dfs cont NE H LA.
  pose proof (iso_answers s1 s2 q n1 n2 adj1 adj2 M1 M2 E HF LV q' e lb ub heur dfs cont NE H LA) as W.
  apply wp_iff in W. destruct W as (r & Er & Qr). apply wp_iff. exists r. split; auto. destruct r as [p' [[a b]|x]]; cbn [snd fst] in *.
  - destruct Qr as (EMB & _). pose proof EMB as (L & NA & NB & _ & R & _).
    unfold iso_get_dicts. rewrite Er. cbn [bind].
    pose proof (format_right s2 n2 adj2 M2 a b L NA NB R n1 adj1 EMB) as FR.
    assert (ST : stray adj2 a b -> format_correspondence s2 a b = Ok (Raise EKeyError)) by (apply (format_stray s2 n2); auto).
    assert (NS : ~ stray adj2 a b -> exists G1 G2 m, format_correspondence s2 a b = Ok (Ret (G1, G2, m))).
    { intros N. destruct (format_contents s2 n2 adj2 M2 a b L NA NB R N) as (G1 & G2 & m & F & _). eauto. }
    assert (X : exists d, format_correspondence s2 a b = Ok d).
    { destruct (fill_maps a b [] []) as [m i] eqn:Em.
      assert (DEC : (exists G, fill_graphs s2 a i a b [] [] = Ok G)).
      { clear - M2 R. generalize (@nil (nat * list nat)) at 1. generalize (@nil (nat * list nat)). generalize a at 1. intros v2. revert b R.
        induction a as [|x a' IH]; intros [|y b] R G2 G1; cbn [fill_graphs]; eauto.
        pose proof (made_neighbors s2 n2 adj2 y M2 ltac:(apply R; left; auto)) as W. apply wp_iff in W. destruct W as (r & -> & l & -> & _ & I). cbn [bind].
        destruct (v2_inv_cases i (filter (fun z => existsb (Nat.eqb z) v2) l)) as [(l' & ->)| ->]; eauto. apply IH. intros; apply R; right; auto. }
      destruct DEC as (G & EG). unfold format_correspondence. rewrite Em, EG. cbn [bind]. destruct G as [[]|]; eauto. }
    destruct X as (d & Ed). rewrite Ed in *. cbn [bind]. exists d. split; auto. split; [|split].
    + intros s. specialize (ST s). congruence.
    + intros s. destruct (NS s) as (G1 & G2 & m & F). exists G1, G2, m. congruence.
    + rewrite <- FR. split; intros (G1 & G2 & m & F & D); exists G1, G2, m; split; auto; congruence.
  - subst. exists (Raise EBounds). unfold iso_get_dicts. rewrite Er. cbn [bind]. auto.
Qed.
