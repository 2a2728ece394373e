(** ColourFacts: lemmas for C110. *)
From Coq Require Import Permutation.
From Verif Require Import Base MUtils MGraph MEnum MApi MNW MNWEnum MNWApi Spec SpecNW SpecChange SpecGrow SpecColour LoadFacts SearchProps SetFacts Samples FirstFacts NWProps ChangeFacts GrowFacts EnumCalls.
Local Open Scope nat_scope.

(** ** Cliques *)
Lemma nodup_image (f : nat -> nat) c : NoDup c -> (forall u v, In u c -> In v c -> u <> v -> f u <> f v) -> NoDup (map f c).
Proof.
  intros N. induction N as [|x c X N IH]; intros H; cbn [map]; constructor.
  - rewrite in_map_iff. intros (y & E & I). apply (H y x); cbn; auto. intros ->. auto.
  - apply IH. intros u v U V. apply H; cbn; auto.
Qed.

Lemma coloured_clique k n adj col c : coloured k n adj col -> clique n adj c -> length c <= k.
Proof.
  intros [R D] (C1 & C2 & C3). rewrite <- (map_length col c), <- (seq_length k 0). apply NoDup_incl_length.
  - apply nodup_image; [apply lt_nodup; exact C1|]. intros u v U V N. apply D, C3; auto.
  - intros i I. apply in_map_iff in I. destruct I as (v & <- & I). apply in_seq. specialize (R v (C2 v I)). lia.
Qed.

Lemma folded_clique n n' adj adj' s c : folds n n' adj adj' s -> simple n' adj' -> clique n adj c -> exists d, clique n' adj' d /\ length d = length c.
Proof.
  intros [R A] SI (C1 & C2 & C3). exists (ordered n' (map s c)).
  assert (RG : forall x, In x (map s c) -> 1 <= x <= n') by (intros x I; apply in_map_iff in I; destruct I as (y & <- & I); auto).
  assert (ND : NoDup (map s c)).
  { apply nodup_image; [apply lt_nodup; exact C1|]. intros u v U V N. apply (SI _ _ (A _ _ (C3 u v U V N))). }
  assert (P : Permutation (ordered n' (map s c)) (map s c)) by (apply NoDup_Permutation; [apply lt_nodup, ordered_sorted|exact ND|intros v; apply in_ordered; exact RG]).
  split; [split; [apply ordered_sorted|split]|rewrite (Permutation_length P); apply map_length].
  - intros v I. apply RG. eapply Permutation_in; eauto.
  - intros u v U V N. apply (Permutation_in _ P) in U, V. apply in_map_iff in U as (x & <- & X). apply in_map_iff in V as (y & <- & Y).
    apply A. apply C3; auto; congruence.
Qed.

(** ** Graph *)
Lemma coloured_search p n adj k col q e lb ub heur dfs cont : coloured k n adj col -> made p n adj -> has_edge adj -> storage_live p -> history p q -> lawful e lb ->
  ends_with (get_max_clique e q lb ub heur dfs cont) (fun r => match snd r with Ret c => length c <= k | Raise x => x = EBounds end).
Proof.
  intros CO M HE LV H LA. eapply BaseFacts.wp_mono; [apply (history_ends p n adj q e lb ub heur dfs cont M HE LV H LA)|].
  intros [q' [c|x]] [_ R]; cbn [snd] in *; [|exact R]. apply (coloured_clique k n adj col c CO). apply R.
Qed.

Lemma coloured_list p n adj k col lr j : coloured k n adj col -> made p n adj -> storage_live p -> 1 <= n -> k < j ->
  exists a q en, all_cliques p j = Ret a /\ forall fuel, 0 < fuel -> drain fuel lr p a = Ok (q, en, []).
Proof.
  intros CO M LV HN KJ. destruct (enumerate_fresh p n adj lr j M LV) as (q & en & l & D & _ & _ & C & _).
  assert (l = []) as ->.
  { destruct l as [|d l]; [reflexivity|]. destruct (C d (or_introl eq_refl)) as [CD L]. pose proof (coloured_clique k n adj col d CO CD). lia. }
  exists (new_enum j), q, en. split; [apply (all_cliques_made p n adj M LV j); exact HN|]. exact D.
Qed.

Lemma folded_size p p' n n' adj adj' s : folds n n' adj adj' s -> made p n adj -> made p' n' adj' -> storage_live p -> storage_live p' -> has_edge adj ->
  forall q e e' lb lb' ub ub' heur heur' dfs cont cont' r c q' c', history p q -> lawful e lb -> permutes e' -> never_late e' -> (forall d, clique n' adj' d -> length d <= ub') ->
  get_max_clique e q lb ub heur dfs cont = Ok (r, Ret c) -> get_max_clique e' p' lb' ub' heur' true cont' = Ok (q', Ret c') -> length c <= length c'.
Proof.
  intros F M M' LV LV' HE q e e' lb lb' ub ub' heur heur' dfs cont cont' r c q' c' H LA P' T' U' E E'.
  assert (HE' : has_edge adj') by (destruct HE as (u & v & A); exists (s u), (s v); apply F; exact A).
  pose proof (history_ends p n adj q e lb ub heur dfs cont M HE LV H LA) as W. rewrite E in W. destruct W as [_ [C _]].
  destruct (fresh_best p' n' adj' e' lb' ub' heur' cont' q' c' M' HE' LV' P' T' U' E') as [_ X].
  destruct (folded_clique n n' adj adj' s c F (made_simple _ _ _ M') C) as (d & D & L). rewrite <- L. apply X. exact D.
Qed.

(** ** NWGraph *)
Lemma total_nonneg b k : (forall i, (0 <= b i)%Z) -> (0 <= total b k)%Z.
Proof. intros H. induction k as [|k IH]; cbn [total]; [lia|]. specialize (H k). lia. Qed.

Lemma total_ext b b' k : (forall i, i < k -> b i = b' i) -> total b k = total b' k.
Proof. induction k as [|k IH]; intros H; cbn [total]; [reflexivity|]. rewrite IH, H; auto. Qed.

Lemma total_drop b x k : x < k -> total b k = (b x + total (fun i => if Nat.eqb i x then 0 else b i) k)%Z.
Proof.
  induction k as [|k IH]; intros H; [lia|]. cbn [total]. destruct (Nat.eqb_spec k x) as [->|N].
  - rewrite (total_ext (fun i => if i =? x then 0%Z else b i) b x); [lia|]. intros i I. destruct (Nat.eqb_spec i x); [lia|reflexivity].
  - rewrite IH by lia. lia.
Qed.

Lemma coloured_weight k n adj col w b c : coloured k n adj col -> (forall v, 1 <= v <= n -> (vweight w v <= b (col v))%Z) -> (forall i, (0 <= b i)%Z) ->
  clique n adj c -> (weight w c <= total b k)%Z.
Proof.
  intros [R D] B N (C1 & C2 & C3). apply lt_nodup in C1.
  assert (ND : NoDup (map col c)) by (apply nodup_image; [exact C1|]; intros u v U V NE; apply D, C3; auto).
  clear C1 C3 D. assert (B' : forall v, In v c -> (vweight w v <= b (col v))%Z) by auto. clear B.
  revert b N B'. induction c as [|x c IH]; intros b N B; cbn [weight]; [apply total_nonneg; exact N|].
  cbn [map] in ND. inversion_clear ND. rewrite (total_drop b (col x) k) by (apply R, C2; cbn; auto).
  specialize (IH (fun v I => C2 v (or_intror I)) H0 (fun i => if i =? col x then 0%Z else b i)). specialize (B x (or_introl eq_refl)) as BX.
  assert (weight w c <= total (fun i => if Nat.eqb i (col x) then 0 else b i) k)%Z; [|lia]. apply IH.
  - intros i. destruct (i =? col x); [lia|apply N].
  - intros v I. destruct (Nat.eqb_spec (col v) (col x)) as [E|_]; [|apply B; cbn; auto]. exfalso. apply H. rewrite <- E. apply in_map. exact I.
Qed.

Lemma coloured_heaviest rnd p n adj w k col b q e lb ub heur dfs : coloured k n adj col -> (forall v, 1 <= v <= n -> (vweight w v <= b (col v))%Z) -> (forall i, (0 <= b i)%Z) ->
  nmade rnd p n adj w -> has_edge adj -> nstorage_live p -> nhistory rnd p q -> npermutes e ->
  ends_with (nw_get_max_clique rnd e q lb ub heur dfs) (fun r => match snd r with Ret c => length c <= k /\ (weight w c <= total b k)%Z | Raise x => x = EBounds end).
Proof.
  intros CO B N MK HE LV H HP. assert (K1 : 1 <= k).
  { destruct HE as (u & v & A). destruct (nmade_made _ _ _ _ _ MK) as [_ MD]. pose proof (proj1 CO u (proj2 (proj2 (made_simple _ _ _ MD u v A)))). lia. }
  eapply BaseFacts.wp_mono; [apply (nw_clique rnd p n adj w MK HE LV q e lb ub heur dfs H HP)|].
  intros [q' [c|x]] R; cbn [snd]; [|exact R]. destruct R as [[-> |C] _]; [split; [cbn; lia|cbn; pose proof (total_nonneg b k N); lia]|]. split.
  - apply (coloured_clique k n adj col c CO C).
  - apply (coloured_weight k n adj col w b c CO B N C).
Qed.
