(** NWFirstSamples: the triangles of FirstSamples with weights, and with one vertex more (C104, C106). *)
From Verif Require Import Base MUtils MGraph MApi MNW MNWEnum MNWApi Spec SpecDec SpecNW SpecNWFirst SpecLone SpecRound SetFacts BaseFacts LoadFacts NWRoundFacts NWFacts NWEnumFacts NWEnumApi NWProps NWSame Samples ExtSamples NWSamples FirstSamples.
Local Open Scope nat_scope.

Definition ones : list Z := [1; 1; 1; 1; 1; 1; 1; 1; 1; 1; 1; 1; 1]%Z.
Definition wtwo : pynw := match nw_from_edgelist half_even two_rows 13 ones with Ok (Ret p) => p | _ => new_pynw end.
(** The rows in another order *)
Definition wtwo' : pynw := match nw_from_edgelist half_even (rev two_rows) 13 ones with Ok (Ret p) => p | _ => new_pynw end.
(** Vertex 14 has no neighbours and weighs 4, or 50. *)
Definition wlight : pynw := match nw_from_edgelist half_even two_rows 14 (ones ++ [4%Z]) with Ok (Ret p) => p | _ => new_pynw end.
Definition wheavy : pynw := match nw_from_edgelist half_even two_rows 14 (ones ++ [50%Z]) with Ok (Ret p) => p | _ => new_pynw end.

Lemma wtwo_made : nmade half_even wtwo 13 (adj_rows two_rows) ones.
Proof. apply nmade_edgelist; [unfold fits; vm_compute; reflexivity|]. vm_compute. reflexivity. Qed.
Lemma wtwo'_made : nmade half_even wtwo' 13 (adj_rows (rev two_rows)) ones.
Proof. apply nmade_edgelist; [unfold fits; vm_compute; reflexivity|]. vm_compute. reflexivity. Qed.
Lemma wlight_made : nmade half_even wlight 14 (adj_rows two_rows) (ones ++ [4%Z]).
Proof. apply nmade_edgelist; [unfold fits; vm_compute; reflexivity|]. vm_compute. reflexivity. Qed.
Lemma wheavy_made : nmade half_even wheavy 14 (adj_rows two_rows) (ones ++ [50%Z]).
Proof. apply nmade_edgelist; [unfold fits; vm_compute; reflexivity|]. vm_compute. reflexivity. Qed.

Lemma wtwo_live : nstorage_live wtwo.
Proof. apply liveb_sound. vm_compute. reflexivity. Qed.
Lemma wtwo'_live : nstorage_live wtwo'.
Proof. apply liveb_sound. vm_compute. reflexivity. Qed.
Lemma wlight_live : nstorage_live wlight.
Proof. apply liveb_sound. vm_compute. reflexivity. Qed.
Lemma wheavy_live : nstorage_live wheavy.
Proof. apply liveb_sound. vm_compute. reflexivity. Qed.

Lemma wtwo'_same u v : adj_rows two_rows u v <-> adj_rows (rev two_rows) u v.
Proof. unfold adj_rows. rewrite <- !in_rev. tauto. Qed.

Lemma ones_sums : sums_exact half_even ones /\ nonnegative ones.
Proof. split; [apply small_sums; reflexivity|]. intros y I. simpl in I. lia. Qed.
Lemma light_sums : sums_exact half_even (ones ++ [4%Z]) /\ nonnegative (ones ++ [4%Z]).
Proof. split; [apply small_sums; reflexivity|]. intros y I. simpl in I. lia. Qed.
Lemma heavy_sums : sums_exact half_even (ones ++ [50%Z]) /\ nonnegative (ones ++ [50%Z]).
Proof. split; [apply small_sums; reflexivity|]. intros y I. simpl in I. lia. Qed.

(** Fourteen vertices of weight at most 50 weigh at most 700. *)
Lemma within_700 n w : n <= 14 -> (forall x, In x w -> (x <= 50)%Z) -> all_within n (adj_rows two_rows) w 700.
Proof.
  intros N H d (C1 & C2 & _) _.
  assert (V : forall v, (vweight w v <= 50)%Z).
  { intros v. unfold vweight. destruct (nth_in_or_default v (0 :: w)%Z 0%Z) as [[<- |I]|E]; [lia|auto|]. rewrite E. lia. }
  assert (G : forall l, (weight w l <= 50 * Z.of_nat (length l))%Z).
  { induction l as [|x l IH]; cbn [weight length]; [lia|]. pose proof (V x). lia. }
  assert (L : length d <= length (seq 1 n)).
  { apply NoDup_incl_length; [apply sorted_nodup; exact C1|]. intros x I. apply C2 in I. apply in_seq. lia. }
  rewrite seq_length in L. pose proof (G d). lia.
Qed.
Lemma ones_700 : all_within 13 (adj_rows two_rows) ones 700.
Proof. apply within_700; [lia|]. intros x I. simpl in I. lia. Qed.
Lemma light_700 : all_within 14 (adj_rows two_rows) (ones ++ [4%Z]) 700.
Proof. apply within_700; [lia|]. intros x I. simpl in I. lia. Qed.
Lemma heavy_700 : all_within 14 (adj_rows two_rows) (ones ++ [50%Z]) 700.
Proof. apply within_700; [lia|]. intros x I. simpl in I. lia. Qed.

Lemma two_padded x : padded 13 14 (adj_rows two_rows) (adj_rows two_rows) /\ same_weights 13 ones (ones ++ [x]).
Proof. split; [split; [lia|tauto]|]. intros v H. do 14 (destruct v as [|v]; [reflexivity|]). lia. Qed.

(** The neighbours of a vertex, computed *)
Definition near (v : nat) : list nat := filter (fun u => negb (u =? v) && pair_in two_rows v u) (seq 1 13).

Lemma near_in v u : In u (near v) <-> adj_rows two_rows v u.
Proof.
  unfold near. rewrite filter_In, in_seq. split.
  - intros (_ & H). apply andb_prop in H. destruct H as [H1 H2]. split; [intros ->; rewrite Nat.eqb_refl in H1; discriminate|]. apply pair_in_sound. exact H2.
  - intros (N & H). assert (R : forall x y, In (x, y) two_rows -> 1 <= x < 14 /\ 1 <= y < 14).
    { intros x y I. assert (B : forallb (fun p => (1 <=? fst p) && (fst p <? 14) && ((1 <=? snd p) && (snd p <? 14))) two_rows = true) by reflexivity.
      rewrite forallb_forall in B. specialize (B _ I). cbn [fst snd] in B. rewrite !andb_true_iff, !Nat.leb_le, !Nat.ltb_lt in B. lia. }
    split; [destruct H as [H|H]; apply R in H; lia|]. apply andb_true_intro. split; [destruct (Nat.eqb_spec u v); [congruence|reflexivity]|].
    unfold pair_in. apply existsb_exists. destruct H as [H|H]; eexists; (split; [exact H|]); cbn [fst snd]; rewrite !Nat.eqb_refl; [reflexivity|apply orb_true_r].
Qed.

Lemma two_wdegree v : 1 <= v <= 13 -> wdegree (adj_rows two_rows) ones v (weight ones (v :: near v)).
Proof.
  intros V. exists (v :: near v). split; [|split; [|reflexivity]].
  - constructor; [rewrite near_in; intros (N & _); congruence|]. apply NoDup_filter, seq_NoDup.
  - intros u. rewrite <- near_in. split; [intros [<- |I]; auto|]. intros [-> |I]; [left; reflexivity|right; exact I].
Qed.

(** Vertex 4 and its neighbours that come after it weigh 4. *)
Lemma two_later : later_weight (adj_rows two_rows) ones 4 4.
Proof.
  exists [4; 5; 6; 7]. split; [repeat constructor; simpl; lia|]. split; [|reflexivity].
  assert (A : forall u, In u [5; 6; 7] -> weighs_after (adj_rows two_rows) ones 4 u).
  { intros u I xu xv XU XV. assert (U : 1 <= u <= 13) by (simpl in I; lia).
    rewrite (wdegree_fun _ _ _ _ _ XU (two_wdegree u U)), (wdegree_fun _ _ _ _ _ XV (two_wdegree 4 ltac:(lia))).
    destruct I as [<- |[<- |[<- |[]]]]; vm_compute; auto. }
  intros u. rewrite <- near_in. change (near 4) with [5; 6; 7]. split.
  - intros [<- |I]; auto.
  - intros [-> |(I & _)]; [left; reflexivity|right; exact I].
Qed.

Lemma light_light : forall v, 13 < v <= 14 -> exists u x, 1 <= u <= 13 /\ later_weight (adj_rows two_rows) ones u x /\ (vweight (ones ++ [4%Z]) v <= x)%Z.
Proof. intros v H. assert (v = 14) as -> by lia. exists 4, 4%Z. split; [lia|]. split; [exact two_later|]. vm_compute. discriminate. Qed.

(** It is the weightiest one. *)
Lemma two_weightiest : weightiest 13 (adj_rows two_rows) ones 4.
Proof.
  split; [lia|]. exists 4%Z. split; [exact two_later|].
  assert (B : forall v y, 1 <= v <= 13 -> v <> 4 -> later_weight (adj_rows two_rows) ones v y -> (y < 4)%Z).
  { intros v y V NE (l & N & H & <-).
    set (L := v :: filter (fun u => let a := weight ones (v :: near v) in let b := weight ones (u :: near u) in (a <? b)%Z || (a =? b)%Z && (v <? u)) (near v)).
    assert (I : incl l L).
    { intros u I. apply H in I. destruct I as [-> |(A & W)]; [left; reflexivity|right]. apply filter_In. pose proof (proj2 (near_in v u) A) as I2. split; [exact I2|].
      assert (U : 1 <= u <= 13) by (unfold near in I2; apply filter_In in I2; destruct I2 as [I2 _]; apply in_seq in I2; lia).
      cbv zeta. apply orb_true_iff. rewrite Z.ltb_lt, andb_true_iff, Z.eqb_eq, Nat.ltb_lt. apply (W _ _ (two_wdegree u U) (two_wdegree v V)). }
    assert (G : forall d, (weight ones d <= Z.of_nat (length d))%Z).
    { intros d. induction d as [|x d IH]; [cbn; lia|]. cbn [weight length]. assert (vweight ones x <= 1)%Z; [|lia].
      unfold vweight. destruct (nth_in_or_default x (0 :: ones)%Z 0%Z) as [J|E]; [revert J; generalize (nth x (0 :: ones)%Z 0%Z); intros z J; simpl in J; lia|]. rewrite E. lia. }
    pose proof (G l) as GL. pose proof (NoDup_incl_length N I) as LE. assert (K : length L <= 3); [|clear -GL LE K; lia].
    clear -V NE. subst L. destruct v as [|v]; [lia|]. do 13 (destruct v as [|v]; [first [exfalso; lia|apply Nat.leb_le; vm_compute; reflexivity]|]). lia. }
  split; intros v y V Y.
  - destruct (Nat.eq_dec v 4) as [->|NE]; [|specialize (B v y V NE Y); lia]. destruct Y as (l & N & H & <-). destruct two_later as (l' & N' & H' & E).
    rewrite <- E. apply Z.eq_le_incl. apply weight_perm, NoDup_Permutation; auto. intros u. rewrite H, H'. tauto.
  - apply (B v); auto; lia.
Qed.
