(** ExtSamples: the dictionaries of isograph.py, a sort for distance tables, and small inputs used in P_Ext. *)
From Verif Require Import Base BaseFacts MBits MUtils MGraph MHeur MStack MRec MEnum MApi MExt MPy Spec SpecDec LoadProps ExtFacts IsoFacts SearchProps Samples ExtProps.
From Coq Require Import Sorting.Sorted Sorting.Permutation.
Local Open Scope nat_scope.

(** ** Dictionaries *)
Lemma dget_dset {V} (d : list (nat * V)) k v k' : dget (dset d k v) k' = if k =? k' then Some v else dget d k'.
Proof.
  induction d as [|(x, y) d IH]; cbn [dset dget].
  - destruct (k =? k'); auto.
  - destruct (Nat.eqb_spec x k) as [->|N]; cbn [dget].
    + destruct (k =? k'); auto.
    + rewrite IH. destruct (Nat.eqb_spec x k') as [->|]; auto. destruct (Nat.eqb_spec k k'); congruence.
Qed.

Lemma fill_maps_spec a : forall b m i, length a = length b -> NoDup a -> NoDup b ->
  exists m' i', fill_maps a b m i = (m', i')
    /\ (forall k, k < length a -> dget m' (nth k a 0) = Some (nth k b 0) /\ dget i' (nth k b 0) = Some (nth k a 0))
    /\ (forall x, ~ In x a -> dget m' x = dget m x) /\ (forall y, ~ In y b -> dget i' y = dget i y).
Proof.
  induction a as [|x a IH]; intros [|y b] m i L NA NB; try discriminate.
  - exists m, i. split; auto. split; [intros k K; cbn in K; lia|auto].
  - inversion NA; inversion NB; subst. cbn [length] in L.
    destruct (IH b (dset m x y) (dset i y x)) as (m' & i' & E & K & U1 & U2); auto; try lia.
    exists m', i'. split; [exact E|]. split; [|split].
    + intros [|k] Hk; cbn [nth].
      * rewrite U1, U2 by auto. rewrite !dget_dset, !Nat.eqb_refl. auto.
      * apply K. cbn [length] in Hk. lia.
    + intros z N. rewrite U1 by (intros I; apply N; right; auto). rewrite dget_dset.
      destruct (Nat.eqb_spec x z) as [->|]; auto. exfalso. apply N. left. auto.
    + intros z N. rewrite U2 by (intros I; apply N; right; auto). rewrite dget_dset.
      destruct (Nat.eqb_spec y z) as [->|]; auto. exfalso. apply N. left. auto.
Qed.

Lemma v2_inv_spec im z : (forall x, In x z -> exists y, dget im x = Some y) ->
  exists l, v2_inv im z = Ret l /\ forall y, In y l <-> exists x, In x z /\ dget im x = Some y.
Proof.
  induction z as [|x z IH]; intros H; cbn [v2_inv].
  - exists []. split; auto. intros y. split; [intros []|intros (x & [] & _)].
  - destruct (H x (or_introl eq_refl)) as (y & E). rewrite E. destruct IH as (l & El & Il); [intros; apply H; right; auto|].
    rewrite El. exists (y :: l). split; auto. intros w. cbn [In]. rewrite Il. split.
    + intros [<-|(x' & I & X)]; [exists x; auto|exists x'; auto].
    + intros (x' & [<-|I] & X); [left; congruence|right; exists x'; auto].
Qed.

(** The two graph dictionaries for the vertices [a], [b], when no vertex of [v2] next to a vertex of [b] lacks an inverse. *)
Section Dicts.
  Variables (s2 : pygraph) (n2 : nat) (adj2 : nat -> nat -> Prop).
  Hypothesis M2 : made s2 n2 adj2.
  Variables (v2 : list nat) (im : list (nat * nat)).

  Definition good_nb (y : nat) (l : list nat) : Prop := forall z, In z l <-> In z v2 /\ adj2 y z.
  Definition good_im (y : nat) (l : list nat) : Prop := forall x, In x l <-> exists z, In z v2 /\ adj2 y z /\ dget im z = Some x.

  Lemma fill_graphs_spec a : forall b G1 G2, length a = length b -> NoDup a -> NoDup b -> (forall y, In y b -> y <= n2) ->
    (forall y z, In y b -> In z v2 -> adj2 y z -> exists x, dget im z = Some x) ->
    exists G1' G2', fill_graphs s2 v2 im a b G1 G2 = Ok (Ret (G1', G2'))
      /\ (forall k, k < length a -> exists l l', dget G2' (nth k b 0) = Some l /\ good_nb (nth k b 0) l
             /\ dget G1' (nth k a 0) = Some l' /\ good_im (nth k b 0) l')
      /\ (forall x, ~ In x a -> dget G1' x = dget G1 x) /\ (forall y, ~ In y b -> dget G2' y = dget G2 y).
  Proof.
    induction a as [|x a IH]; intros [|y b] G1 G2 L NA NB R H; try discriminate.
    - exists G1, G2. split; auto. split; [intros k K; cbn in K; lia|auto].
    - inversion NA; inversion NB; subst. cbn [length] in L. cbn [fill_graphs].
      pose proof (made_neighbors s2 n2 adj2 y M2 (R y (or_introl eq_refl))) as W. apply wp_iff in W. destruct W as (r & -> & l & -> & _ & I). cbn [bind].
      set (nb := filter (fun z => existsb (Nat.eqb z) v2) l).
      assert (GN : good_nb y nb).
      { intros z. unfold nb. rewrite filter_In, existsb_exists, I. split.
        - intros (A & w & Iw & Ew). apply Nat.eqb_eq in Ew. subst. auto.
        - intros (Iz & A). split; auto. exists z. split; auto. apply Nat.eqb_refl. }
      destruct (v2_inv_spec im nb) as (l' & El & Il).
      { intros z Iz. apply GN in Iz. apply (H y z); [left; auto|tauto|tauto]. }
      rewrite El.
      destruct (IH b (dset G1 x l') (dset G2 y nb)) as (G1' & G2' & E & K & U1 & U2); auto; try lia.
      { intros; apply R; right; auto. } { intros y' z Iy; apply H; right; auto. }
      exists G1', G2'. split; [exact E|]. split; [|split].
      + intros [|k] Hk; cbn [nth].
        * exists nb, l'. rewrite U1, U2 by auto. rewrite !dget_dset, !Nat.eqb_refl. do 3 (split; auto).
          intros w. rewrite Il. split; [intros (z & Iz & D); apply GN in Iz; exists z; tauto|intros (z & Iz & A & D); exists z; split; auto; apply GN; auto].
        * apply K. cbn [length] in Hk. lia.
      + intros z N. rewrite U1 by (intros Iz; apply N; right; auto). rewrite dget_dset.
        destruct (Nat.eqb_spec x z) as [->|]; auto. exfalso. apply N. left. auto.
      + intros z N. rewrite U2 by (intros Iz; apply N; right; auto). rewrite dget_dset.
        destruct (Nat.eqb_spec y z) as [->|]; auto. exfalso. apply N. left. auto.
  Qed.
End Dicts.

Lemma same_vertices_dicts s2 n2 adj2 a b : made s2 n2 adj2 -> length a = length b -> NoDup a -> NoDup b ->
  (forall y, In y b -> 1 <= y <= n2) -> (forall x, In x a <-> In x b) ->
  exists G1 G2 m, format_correspondence s2 a b = Ok (Ret (G1, G2, m))
    /\ forall k, k < length a -> dget m (nth k a 0) = Some (nth k b 0)
       /\ (exists l, dget G2 (nth k b 0) = Some l /\ forall y, In y l <-> In y b /\ adj2 (nth k b 0) y)
       /\ (exists l, dget G1 (nth k a 0) = Some l
            /\ forall x, In x l <-> exists t, t < length a /\ x = nth t a 0 /\ adj2 (nth k b 0) (nth t b 0)).
Proof.
  intros M L NA NB R SV. destruct (fill_maps_spec a b [] [] L NA NB) as (m & i & Em & Km & _ & _).
  destruct (fill_graphs_spec s2 n2 adj2 M a i a b [] []) as (G1 & G2 & E & K & _); auto.
  { intros y I. apply R in I. lia. }
  { intros y z _ I _. apply SV in I. destruct (In_nth b z 0 I) as (k & Hk & <-). exists (nth k a 0). apply Km. lia. }
  exists G1, G2, m. unfold format_correspondence. rewrite Em, E. split; auto. intros k Hk. split; [apply Km; auto|].
  destruct (K k Hk) as (l & l' & E1 & N1 & E2 & N2). split.
  - exists l. split; auto. intros y. rewrite (N1 y), SV. tauto.
  - exists l'. split; auto. intros x. rewrite (N2 x). split.
    + intros (z & I & A & D). apply SV in I. destruct (In_nth b z 0 I) as (t & Ht & <-). exists t.
      rewrite (proj2 (Km t ltac:(lia))) in D. injection D as <-. split; [lia|auto].
    + intros (t & Ht & -> & A). exists (nth t b 0). split; [apply SV, nth_In; lia|]. split; auto. apply Km. auto.
Qed.

(** ** A sort *)
Fixpoint pd_insert (x : pdist) (l : list pdist) : list pdist :=
  match l with
  | [] => [x]
  | y :: r => if (d_dist x <=? d_dist y)%Z then x :: y :: r else y :: pd_insert x r
  end.
Definition pd_sort (l : list pdist) : list pdist := fold_right pd_insert [] l.

Lemma pd_sort_sorts : sorts_dists pd_sort.
Proof.
  assert (PI : forall x l, Permutation (pd_insert x l) (x :: l)).
  { intros x l. induction l as [|y l IH]; auto. cbn [pd_insert]. destruct (d_dist x <=? d_dist y)%Z; auto.
    eapply perm_trans; [apply perm_skip; exact IH|apply perm_swap]. }
  intros l. split.
  - induction l as [|x l IH]; auto. cbn [pd_sort fold_right]. eapply perm_trans; [apply PI|]. apply perm_skip. exact IH.
  - induction l as [|x l IH]; [constructor|]. cbn [pd_sort fold_right]. fold (pd_sort l). revert IH. generalize (pd_sort l).
    intros s SS. induction SS as [|y s SS IH F]; cbn [pd_insert]; [repeat constructor|].
    destruct (Z.leb_spec (d_dist x) (d_dist y)) as [Le|Gt].
    + constructor; [constructor; auto|]. constructor; auto. eapply Forall_impl; [|exact F]. cbn. intros z Hz. lia.
    + constructor; auto. rewrite Forall_forall in *. intros z I. apply (Permutation_in _ (PI x s)) in I.
      destruct I as [<-|I]; auto. lia.
Qed.

(** ** Sets given by a table of distances *)
Fixpoint lookup (l : list (nat * nat * Z)) (i j : nat) : Z :=
  match l with
  | [] => 0%Z
  | (a, b, d) :: r => if ((a =? i) && (b =? j)) || ((a =? j) && (b =? i)) then d else lookup r i j
  end.

Lemma lookup_sym l i j : lookup l i j = lookup l j i.
Proof. induction l as [|((a, b), d) l IH]; auto. cbn [lookup]. rewrite orb_comm, IH. reflexivity. Qed.

Definition tset (n : nat) (l : list (nat * nat * Z)) : mset := mkM n (lookup l) true.

Definition pair10 : mset := tset 2 [(0, 1, 10%Z)].
Definition spread : mset := tset 3 [(0, 1, 5%Z); (0, 2, 20%Z); (1, 2, 30%Z)].
Definition equal3 : mset := tset 3 [(0, 1, 10%Z); (0, 2, 10%Z); (1, 2, 10%Z)].

Definition built (o : outcome (exc pygraph)) : pygraph := match o with Ok (Ret q) => q | _ => new_pygraph end.

(** Deciding adjacency of concrete graphs. *)
Definition neighbourb (q : pygraph) (u v : nat) : bool :=
  match vertex_neighbors q u with Ok (Ret l) => existsb (Nat.eqb v) l | _ => false end.
Lemma neighbourb_iff q u v : neighbourb q u v = true <-> neighbour q u v.
Proof.
  unfold neighbourb, neighbour. split.
  - destruct (vertex_neighbors q u) as [[l|]| |]; try discriminate. intros E. exists l. split; auto.
    apply existsb_exists in E. destruct E as (x & I & X). apply Nat.eqb_eq in X. subst. auto.
  - intros (l & -> & I). apply existsb_exists. exists v. split; auto. apply Nat.eqb_refl.
Qed.
Lemma neighbourb_no q u v : neighbourb q u v = false -> ~ neighbour q u v.
Proof. intros E N. apply neighbourb_iff in N. congruence. Qed.

(** ** Small graphs *)
Definition graph_of (rows : list (nat * nat)) (n : nat) : pygraph := built (from_edgelist rows n).
Definition tri4 : pygraph := graph_of [(2, 3); (3, 4); (2, 4)] 4.
Definition tri3 : pygraph := graph_of [(1, 2); (2, 3); (1, 3)] 3.
Definition full4 : pygraph := graph_of [(1, 2); (2, 3); (1, 3); (1, 4); (2, 4); (3, 4)] 4.
Definition none2 : pygraph := graph_of [] 2.
Definition full2 : pygraph := graph_of [(1, 2)] 2.
Definition product (s1 s2 : pygraph) : pygraph := built (build_edges_for_iso new_pygraph s1 s2).

Lemma made_of rows n : fits (n + 1 + 2 * length rows) -> from_edgelist rows n = Ok (Ret (graph_of rows n)) -> made (graph_of rows n) n (adj_rows rows).
Proof. intros F E. apply made_edgelist; auto. Qed.

Lemma adj_rows_dec rows u v : adj_rows rows u v \/ ~ adj_rows rows u v.
Proof.
  unfold adj_rows. destruct (Nat.eq_dec u v) as [|N]; [tauto|].
  assert (D : forall x y : nat * nat, {x = y} + {x <> y}) by (decide equality; apply Nat.eq_dec).
  destruct (in_dec D (u, v) rows), (in_dec D (v, u) rows); tauto.
Qed.

Definition liveb (p : pygraph) : bool := match p_G p with Some g => bits_live g | None => false end.
Lemma liveb_sound p : liveb p = true -> storage_live p.
Proof. unfold liveb, storage_live. destruct (p_G p) as [g|]; [|discriminate]. intros E. exists g. auto. Qed.
