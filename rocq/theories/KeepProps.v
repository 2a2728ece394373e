(** KeepProps: exporters after arbitrary calls, node-weighted exporters and correspondences (C59 - C62). *)
From Verif Require Import Base MBits MUtils MGraph MStack MRec MHeur MEnum MApi MExt MFile MNW MNWEnum MNWApi MNWCorr
  BaseFacts ConstructFacts ExportFacts Spec SpecNW SpecKeep LoadFacts LoadProps FileProps ApiFacts ExtFacts ExtProps NWProps KeepFacts.
Local Open Scope nat_scope.
Local Arguments Nat.sub : simpl never.
Local Arguments Nat.mul : simpl never.

(** ** What the exporters read *)
Lemma rd_strip g g' i : skel g = skel g' ->
  match rd (vertices g) i, rd (vertices g') i with
  | Ok v, Ok v' => strip v = strip v'
  | UB a, UB b => a = b
  | _, _ => False
  end.
Proof.
  intros H. assert (E : map strip (vertices g) = map strip (vertices g')) by (unfold skel in H; congruence).
  apply (f_equal (fun l => nth_error l i)) in E. rewrite !nth_error_map in E. unfold rd.
  destruct (nth_error (vertices g) i), (nth_error (vertices g') i); cbn in *; congruence.
Qed.

Lemma strip_eq v v' : strip v = strip v' -> vN v = vN v' /\ vspos v = vspos v' /\ velo v = velo v'.
Proof. unfold strip, set_mcs. intros H. injection H. auto. Qed.

Lemma skel_el g g' : skel g = skel g' -> edge_list g = edge_list g' /\ n_vert g = n_vert g'.
Proof. unfold skel. intros H. split; congruence. Qed.

Lemma send_data_keep g g' : skel g = skel g' -> send_data g = send_data g'.
Proof.
  intros H. unfold send_data. destruct (skel_el _ _ H) as [-> ->]. apply for_ext. intros i s Hi.
  pose proof (rd_strip _ _ i H) as R. destruct (rd (vertices g) i), (rd (vertices g') i); try contradiction; cbn [bind]; [|congruence].
  destruct (strip_eq _ _ R) as (-> & -> & ->). reflexivity.
Qed.

Lemma vertex_data_keep g g' i : skel g = skel g' -> vertex_data g i = vertex_data g' i.
Proof.
  intros H. unfold vertex_data. destruct (skel_el _ _ H) as [-> _].
  pose proof (rd_strip _ _ i H) as R. destruct (rd (vertices g) i), (rd (vertices g') i); try contradiction; cbn [bind]; [|congruence].
  destruct (strip_eq _ _ R) as (-> & _ & ->). reflexivity.
Qed.

Lemma pskel_loaded p q : pskel p = pskel q -> p_nvert p = p_nvert q /\ p_nedges p = p_nedges q
  /\ match p_G p, p_G q with Some g, Some g' => skel g = skel g' | None, None => True | _, _ => False end.
Proof. unfold pskel. intros H. destruct (p_G p), (p_G q); cbn in H; repeat split; congruence. Qed.

Definition same_exports (p q : pygraph) : Prop :=
  (forall i, vertex_neighbors p i = vertex_neighbors q i) /\ to_matrix p = to_matrix q /\ to_adjlist p = to_adjlist q
  /\ to_edgelist p = to_edgelist q /\ (forall opens, to_file opens p = to_file opens q).

Lemma exports_keep p q : pskel p = pskel q -> same_exports p q.
Proof.
  intros H. destruct (pskel_loaded _ _ H) as (E1 & E2 & E3). unfold same_exports, vertex_neighbors, to_matrix, to_adjlist, to_edgelist, to_file, loaded.
  rewrite E1, E2. destruct (p_G p) as [g|], (p_G q) as [g'|]; try contradiction; [|repeat split].
  destruct (p_nvert q =? 0); rewrite ?(send_data_keep _ _ E3); (split; [|repeat split]); intros i; rewrite (vertex_data_keep _ _ i E3); reflexivity.
Qed.

(** ** C59 *)
Lemma corr_keep e p len2 lb ub heur dfs cont : ifok (get_correspondence e p len2 lb ub heur dfs cont) (fun r => pskel (fst r) = pskel p).
Proof.
  unfold get_correspondence. eapply ifok_bind; [apply get_keep|]. intros [q [c|x]] H; cbn [fst] in *; [|exact H].
  apply ifok_skip. intros. exact H.
Qed.

Lemma next_corr_keep lr len2 p en : ifok (next_correspondence lr len2 p en) (fun r => pskel (fst (fst r)) = pskel p).
Proof.
  unfold next_correspondence. eapply ifok_bind; [apply next_keep|]. intros [[q en'] [c|x]] H; cbn [fst] in *; [|exact H].
  apply ifok_skip. intros. exact H.
Qed.

Lemma calls_keep p q : calls p q -> pskel q = pskel p.
Proof.
  induction 1 as [|q e lb ub heur dfs cont q' r C IH E|q e len2 lb ub heur dfs cont q' r C IH E|q q' C IH E|q lr en q' en' r C IH E|q lr len2 en q' en' r C IH E]; auto; rewrite <- IH.
  - exact (ifok_use _ _ _ (get_keep e q lb ub heur dfs cont) E).
  - exact (ifok_use _ _ _ (corr_keep e q len2 lb ub heur dfs cont) E).
  - exact (ifok_use _ _ _ (reset_keep q) E).
  - exact (ifok_use _ _ _ (next_keep lr q en) E).
  - exact (ifok_use _ _ _ (next_corr_keep lr len2 q en) E).
Qed.

Lemma calls_exports p q : calls p q ->
  (forall i, vertex_neighbors q i = vertex_neighbors p i) /\ to_matrix q = to_matrix p /\ to_adjlist q = to_adjlist p
  /\ to_edgelist q = to_edgelist p /\ (forall opens, to_file opens q = to_file opens p).
Proof. intros C. exact (exports_keep _ _ (calls_keep _ _ C)). Qed.

Section Rounding.
Variable rnd : Z -> Z.

Lemma nw_corr_keep e p len2 lb ub heur dfs : ifok (nw_get_correspondence rnd e p len2 lb ub heur dfs) (fun r => qskel (fst r) = qskel p).
Proof.
  unfold nw_get_correspondence. eapply ifok_bind; [apply nw_get_keep|]. intros [q [c|x]] H; cbn [fst] in *; [|exact H].
  apply ifok_skip. intros. exact H.
Qed.

Lemma nw_next_corr_keep lr len2 p en : ifok (nw_next_correspondence rnd lr len2 p en) (fun r => qskel (fst (fst r)) = qskel p).
Proof.
  unfold nw_next_correspondence. eapply ifok_bind; [apply nw_next_keep|]. intros [[q en'] [c|x]] H; cbn [fst] in *; [|exact H].
  apply ifok_skip. intros. exact H.
Qed.

Lemma ncalls_keep p q : ncalls rnd p q -> qskel q = qskel p.
Proof.
  induction 1 as [|q e lb ub heur dfs q' r C IH E|q e len2 lb ub heur dfs q' r C IH E|q q' C IH E|q lr en q' en' r C IH E|q lr len2 en q' en' r C IH E]; auto; rewrite <- IH.
  - exact (ifok_use _ _ _ (nw_get_keep rnd e q lb ub heur dfs) E).
  - exact (ifok_use _ _ _ (nw_corr_keep e q len2 lb ub heur dfs) E).
  - exact (ifok_use _ _ _ (nw_reset_keep q) E).
  - exact (ifok_use _ _ _ (nw_next_keep rnd lr q en) E).
  - exact (ifok_use _ _ _ (nw_next_corr_keep lr len2 q en) E).
Qed.

Lemma qskel_loaded p q : qskel p = qskel q -> q_nvert p = q_nvert q /\ q_nedges p = q_nedges q
  /\ match q_G p, q_G q with
     | Some W, Some W' => skel (w_g W) = skel (w_g W') /\ w_wt W = w_wt W'
     | None, None => True
     | _, _ => False
     end.
Proof. unfold qskel, wskel. intros H. destruct (q_G p), (q_G q); cbn in H; repeat split; congruence. Qed.

Lemma ncalls_exports p q : ncalls rnd p q ->
  (forall i, nw_vertex_data q i = nw_vertex_data p i) /\ nw_all_weights q = nw_all_weights p
  /\ (forall c, nw_get_clique_weight rnd q c = nw_get_clique_weight rnd p c)
  /\ nw_to_matrix q = nw_to_matrix p /\ nw_to_adjlist q = nw_to_adjlist p /\ nw_to_edgelist q = nw_to_edgelist p.
Proof.
  intros C. apply ncalls_keep in C.
  assert (X : same_exports (nw_as_pygraph q) (nw_as_pygraph p)).
  { apply exports_keep. unfold pskel, nw_as_pygraph. cbn [p_G p_nvert p_nedges]. destruct (qskel_loaded _ _ C) as (E1 & E2 & E3).
    rewrite E1, E2. destruct (q_G q), (q_G p); try contradiction; cbn; [|reflexivity]. destruct E3 as [-> _]. reflexivity. }
  destruct X as (_ & X1 & X2 & X3 & _). destruct (qskel_loaded _ _ C) as (E1 & E2 & E3).
  unfold nw_vertex_data, nw_all_weights, nw_get_clique_weight, nw_loaded, nw_clique_weight. rewrite E1.
  destruct (q_G q) as [W|], (q_G p) as [W'|]; try contradiction; [|repeat split; auto].
  destruct E3 as [E3 E4]. destruct (skel_el _ _ E3) as [_ EN].
  split; [intros i; rewrite (vertex_data_keep _ _ i E3), ?E4; reflexivity|].
  destruct (q_nvert p =? 0); rewrite ?EN, ?E4; repeat split; auto.
Qed.

(** ** C60 *)
Lemma nmade_to_adjlist p n adj w : nmade rnd p n adj w -> 1 <= n ->
  wp (nw_to_adjlist p) (fun r => exists A, r = Ret A /\ length A = n + 1 /\ forall v u, v <= n -> (In u (nth v A []) <-> adj v u)).
Proof.
  intros M Hn. destruct (nmade_made _ _ _ _ _ M) as [_ MD]. eapply wp_mono; [exact (made_to_adjlist _ _ _ MD Hn)|].
  intros r (A & -> & L & _ & K). exists A. do 2 (split; auto). intros v u Hv. apply K. exact Hv.
Qed.

Lemma nmade_to_matrix p n adj w : nmade rnd p n adj w -> 1 <= n ->
  wp (nw_to_matrix p) (fun r => exists M, r = Ret M /\ length M = n /\ (forall i, i < n -> length (nth i M []) = n)
     /\ forall u v, 1 <= u <= n -> 1 <= v <= n -> (nth (v - 1) (nth (u - 1) M []) false = true <-> adj u v)).
Proof. intros M Hn. destruct (nmade_made _ _ _ _ _ M) as [_ MD]. exact (made_to_matrix _ _ _ MD Hn). Qed.

Lemma nmade_to_edgelist p n adj w : nmade rnd p n adj w -> 1 <= n -> (forall l, edges_of adj l -> q_nedges p = length l) ->
  wp (nw_to_edgelist p) (fun r => exists l, r = Ret (map Some l) /\ length l = q_nedges p /\ edges_of adj l /\ StronglySorted lexless l).
Proof. intros M Hn H. destruct (nmade_made _ _ _ _ _ M) as [_ MD]. exact (made_to_edgelist _ _ _ MD Hn H). Qed.

Lemma nw_edgelist_nedges rows n w p : fits (n + 1 + 2 * length rows) -> nw_from_edgelist rnd rows n w = Ok (Ret p) ->
  forall l, edges_of (adj_rows rows) l -> (q_nedges p = length l <-> distinct_rows rows).
Proof. intros HF E l HL. destruct (nw_edgelist_as _ _ _ _ _ E) as [_ E']. exact (edgelist_nedges _ _ _ HF E' l HL). Qed.

Lemma nw_matrix_nedges n M w p : fits (1 + 2 * (n * n)) -> (forall i j, i < n -> j < n -> M i j = M j i) ->
  nw_from_matrix rnd n n M w = Ok (Ret p) -> forall l, edges_of (adj_matrix n M) l -> q_nedges p = length l.
Proof. intros HF HS E l HL. destruct (nw_matrix_as _ _ _ _ _ E) as [_ E']. exact (matrix_nedges _ _ _ HF HS E' l HL). Qed.

(** ** C61 *)
Lemma decode_decodes n2 c : 1 <= n2 -> (forall v, In v c -> 1 <= v) -> exists ab, correspondence2 n2 c = Ok (Ret ab) /\ decodes n2 c ab.
Proof.
  intros N H. destruct (decode_clique n2 c N H) as (a & b & E & LA & LB & EC & B). exists (a, b). split; auto.
  unfold decodes. cbn [fst snd]. do 2 (split; auto). intros k K. split; [apply B, nth_In; lia|]. rewrite EC at 1. apply combine_nth_vid; lia.
Qed.

Lemma clique_ge1 n adj c v : clique n adj c -> In v c -> 1 <= v.
Proof. intros (_ & H & _) I. destruct (H v I). auto. Qed.

Lemma decodes_matching n1 n2 adj c a b : one_to_one n2 adj -> clique (n1 * n2) adj c -> decodes n2 c (a, b) -> matching n1 n2 a b.
Proof.
  intros O C (LA & LB & D). cbn [fst snd] in *.
  assert (ND : NoDup c).
  { destruct C as (SS & _). clear - SS. induction SS as [|x l SS IH F]; constructor; auto. intros I. rewrite Forall_forall in F. specialize (F x I). lia. }
  assert (Q : forall k l, k < length c -> l < length c -> k <> l -> nth k a 0 <> nth l a 0 /\ nth k b 0 <> nth l b 0).
  { intros k l K L N. destruct (D k K) as [JK EK]. destruct (D l L) as [JL EL]. apply (O _ _ _ _ JK JL). rewrite <- EK, <- EL.
    apply C; try (apply nth_In; auto). intros E. apply N. apply (proj1 (NoDup_nth c 0) ND); auto. }
  split; [lia|]. split; [|split; [|split]].
  - apply (NoDup_nth a 0). intros k l K L E. destruct (Nat.eq_dec k l); auto. destruct (Q k l); try lia.
  - apply (NoDup_nth b 0). intros k l K L E. destruct (Nat.eq_dec k l); auto. destruct (Q k l); try lia.
  - intros i I. destruct (In_nth _ _ 0 I) as (k & K & <-). destruct (D k) as [JK EK]; [lia|].
    assert (K' : k < length c) by lia. destruct C as (_ & R & _). specialize (R (nth k c 0) (nth_In c 0 K')). rewrite EK in R. unfold vid in R. nia.
  - intros j I. destruct (In_nth _ _ 0 I) as (k & K & <-). apply D. lia.
Qed.

Lemma nw_next_raises lr p en p' en' x : nw_next_clique rnd lr p en = Ok (p', en', Raise x) -> x = EStopIteration.
Proof.
  unfold nw_next_clique. destruct (q_G p) as [g|]; [|discriminate]. intros E. apply bind_ok in E. destruct E as ([[g' en0] v] & _ & E).
  destruct (q_nvert p <? v); [injection E as _ _ <-; reflexivity|]. apply bind_ok in E. destruct E as ([g'' c] & _ & E). discriminate.
Qed.

Section Weighted.
  Variables (p : pynw) (n : nat) (adj : nat -> nat -> Prop) (w : list Z).
  Hypothesis (M : nmade rnd p n adj w) (HE : has_edge adj) (LV : nstorage_live p).

  Lemma nw_correspondence q e n2 lb ub heur dfs : nhistory rnd p q -> npermutes e -> 1 <= n2 ->
    wp (nw_get_correspondence rnd e q n2 lb ub heur dfs) (fun '(_, r) => match r with
       | Ret (a, b) => exists c, clique n adj c /\ (sums_exact rnd w -> lb <= weight w c)%Z /\ decodes n2 c (a, b)
       | Raise x => x = EBounds \/ x = ESentinel
       end).
  Proof.
    intros H HP N. unfold nw_get_correspondence. apply wp_bind. eapply wp_mono; [apply (nw_clique rnd p n adj w M HE LV q e lb ub heur dfs H HP)|].
    intros [q' [c|x]]; cbn beta; [|intros ->; apply wp_ok; auto]. intros ([-> |C] & L).
    - cbn [correspondence2]. cbn. auto.
    - destruct (decode_decodes n2 c N) as ([a b] & D & DD); [intros v I; eapply clique_ge1; eauto|]. rewrite D. apply wp_ok. exists c. auto.
  Qed.

  Lemma nw_correspondence_positive q e n2 lb ub heur dfs : sums_exact rnd w -> nonnegative w -> (exists x, In x w /\ (0 < x)%Z) -> nhistory rnd p q -> npermutes e -> 1 <= n2 ->
    wp (nw_get_correspondence rnd e q n2 lb ub heur dfs) (fun '(_, r) => match r with
       | Ret (a, b) => exists c, clique n adj c /\ (lb <= weight w c)%Z /\ decodes n2 c (a, b)
       | Raise x => x = EBounds
       end).
  Proof.
    intros SE NN PO H HP N. unfold nw_get_correspondence. apply wp_bind. eapply wp_mono; [apply (nw_clique_positive rnd p n adj w M HE LV q e lb ub heur dfs SE NN PO H HP)|].
    intros [q' [c|x]]; cbn beta; [|intros ->; apply wp_ok; auto]. intros (C & L).
    destruct (decode_decodes n2 c N) as ([a b] & D & DD); [intros v I; eapply clique_ge1; eauto|]. rewrite D. apply wp_ok. exists c. auto.
  Qed.

  Lemma ncorr_drain_decodes lr n2 : 1 <= n2 -> forall fuel q en q' en' l, nw_drain rnd fuel lr q en = Ok (q', en', l) ->
    (forall d v, In d l -> In v d -> 1 <= v) -> exists cs, nw_corr_drain rnd fuel lr n2 q en = Ok (q', en', Ret cs) /\ Forall2 (decodes n2) l cs.
  Proof.
    intros N. induction fuel as [|f IH]; intros q en q' en' l E H; [discriminate|]. cbn [nw_drain nw_corr_drain] in *. unfold nw_next_correspondence.
    destruct (nw_next_clique rnd lr q en) as [[[q1 en1] [c|x]]| |] eqn:EX; cbn [bind] in *; try discriminate.
    - destruct (nw_drain rnd f lr q1 en1) as [[[q2 en2] l2]| |] eqn:E2; cbn [bind] in *; try discriminate. injection E as <- <- <-.
      destruct (IH _ _ _ _ _ E2) as (cs & E3 & F); [intros d v I1 I2; eapply H; [right; exact I1|exact I2]|].
      destruct (decode_decodes n2 c N) as (ab & D & DD); [intros v I; eapply H; [left; reflexivity|exact I]|].
      rewrite D. cbn [bind]. rewrite E3. cbn [bind]. exists (ab :: cs). split; auto.
    - injection E as <- <- <-. rewrite (nw_next_raises _ _ _ _ _ _ EX). exists []. split; auto.
  Qed.

  Lemma nw_all_correspondences q e T lr n1 n2 : nhistory rnd p q -> 1 <= n2 ->
    exists en q' en' cs l, nw_corr_iterator e q n1 n2 T = Ret en
      /\ (forall fuel, length cs < fuel -> nw_corr_drain rnd fuel lr n2 q en = Ok (q', en', Ret cs))
      /\ NoDup l /\ Forall2 (decodes n2) l cs /\ forall d, In d l -> clique n adj d /\ 2 <= length d /\ (sums_exact rnd w -> T <= weight w d)%Z.
  Proof.
    intros H N. destruct (nw_all_minimal rnd p n adj w M HE LV q e T lr H) as (en & q' & en' & l & E & D & ND & K).
    assert (V : forall d v, In d l -> In v d -> 1 <= v).
    { intros d v I1 I2. destruct (K d I1) as (C & _). eapply clique_ge1; eauto. }
    destruct (ncorr_drain_decodes lr n2 N _ _ _ _ _ _ (D _ (Nat.lt_succ_diag_r _)) V) as (cs & E1 & F).
    exists en, q', en', cs, l. split; auto. split; [|split; [auto|split; [auto|]]].
    - intros fuel L. assert (LF : length l = length cs) by (clear - F; induction F; cbn; lia). rewrite <- LF in L.
      destruct (ncorr_drain_decodes lr n2 N _ _ _ _ _ _ (D _ L) V) as (cs' & E2 & F'). rewrite E2. do 3 f_equal.
      clear - F F'. revert cs' F'. induction F as [|d ab l cs [A1 [A2 A3]] F IH]; intros cs' F'; inversion F' as [|d' ab' l' cs'' [B1 [B2 B3]] F'' Q1 Q2]; subst; auto.
      f_equal; [|apply IH; auto]. destruct ab as [a b], ab' as [a' b']. cbn [fst snd] in *.
      assert (X : forall k, k < length d -> nth k a' 0 = nth k a 0 /\ nth k b' 0 = nth k b 0).
      { intros k L. destruct (A3 k L) as [J1 J2], (B3 k L) as [K1 K2]. rewrite J2 in K2. apply vid_inj in K2; auto. destruct K2; auto. }
      f_equal; eapply nth_ext; try lia; intros k L; apply X; lia.
    - intros d I. destruct (K d I) as (C & L & W). split; auto. split; auto. intros SE. destruct (W SE) as (x & _ & _ & _ & WT & _). exact WT.
  Qed.
End Weighted.

(** ** C62 *)
Lemma made_sized p n adj : made p n adj -> exists g, p_G p = Some g /\ n_vert g = p_nvert p + 1.
Proof. intros M. destruct (made_fresh _ _ _ M) as (a & cap & m & g & -> & GR & B). exists g. split; auto. exact (b_nv _ _ _ _ B). Qed.

Lemma made_calls_sized q n adj p : made q n adj -> calls q p -> exists g, p_G p = Some g /\ n_vert g = p_nvert p + 1.
Proof.
  intros M C. destruct (made_sized _ _ _ M) as (g & E & N). apply calls_keep in C. unfold pskel in C. rewrite E in C.
  destruct (p_G p) as [g'|]; [|discriminate]. exists g'. split; auto. cbn in C. assert (S : skel g' = skel g) by congruence.
  rewrite (skel_nv _ _ S). assert (p_nvert p = p_nvert q) by congruence. lia.
Qed.

Lemma exhausted_stays o n adj p lr en p' en' : made o n adj -> calls o p -> next_clique lr p en = Ok (p', en', Raise EStopIteration) ->
  forall lr' q, calls p' q -> next_clique lr' q en' = Ok (q, en', Raise EStopIteration).
Proof.
  intros M C E lr' q C'. destruct (made_calls_sized _ _ _ _ M C) as (g & EG & N).
  eapply next_exhausted; eauto. apply calls_keep; auto.
Qed.

Lemma nmade_calls_sized q n adj w p : nmade rnd q n adj w -> ncalls rnd q p -> exists W, q_G p = Some W /\ n_vert (w_g W) = q_nvert p + 1.
Proof.
  intros M C. destruct (nmade_made _ _ _ _ _ M) as [_ MD]. destruct (made_sized _ _ _ MD) as (g & E & N). apply ncalls_keep in C.
  unfold nw_as_pygraph in *. cbn [p_G p_nvert] in *. unfold qskel in C. destruct (q_G q) as [W|]; [|discriminate]. injection E as E.
  destruct (q_G p) as [W'|]; [|discriminate]. exists W'. split; auto. cbn in C. assert (S : wskel W' = wskel W) by congruence.
  rewrite (skel_nv _ _ (wskel_skel _ _ S)). assert (q_nvert p = q_nvert q) by congruence. rewrite E. lia.
Qed.

Lemma nexhausted_stays o n adj w p lr en p' en' : nmade rnd o n adj w -> ncalls rnd o p -> nw_next_clique rnd lr p en = Ok (p', en', Raise EStopIteration) ->
  forall lr' q, ncalls rnd p' q -> nw_next_clique rnd lr' q en' = Ok (q, en', Raise EStopIteration).
Proof.
  intros M C E lr' q C'. destruct (nmade_calls_sized _ _ _ _ _ M C) as (g & EG & N).
  eapply (nw_next_exhausted rnd); eauto. apply ncalls_keep; auto.
Qed.

End Rounding.

(** ** C06: exactly what to_edgelist returns *)
Lemma overfill (calls : pairs) : forall k rows i, length rows = k -> i <= k -> k - i < length calls ->
  foldM (fun e '(rows, i) => rows <- wr rows i (Some e);; Ok (rows, S i)) calls (rows, i) = UB OobWrite.
Proof.
  induction calls as [|e calls IH]; intros k rows i L I H; cbn [length] in *; [lia|]. cbn [foldM]. destruct (Nat.eq_dec i k) as [->|N].
  - unfold wr. destruct (Nat.ltb_spec k (length rows)); [lia|]. reflexivity.
  - rewrite wr_ok by lia. cbn [bind]. apply (IH k); try lia. rewrite upd_length. auto.
Qed.

Lemma to_edgelist_exact p n adj : made p n adj -> 1 <= n -> exists l, edges_of adj l /\ StronglySorted lexless l
  /\ (length l <= p_nedges p -> to_edgelist p = Ok (Ret (map Some l ++ repeat None (p_nedges p - length l))))
  /\ (p_nedges p < length l -> to_edgelist p = UB OobWrite).
Proof.
  intros H Hn. destruct (made_holds _ _ _ H) as (a & HH). destruct (loaded_some _ _ _ _ HH Hn) as (g & E & S & G). exists (filter up a).
  split; [apply (up_edges a n adj G)|]. split; [apply (up_sorted a n adj G)|]. unfold to_edgelist. rewrite E, (send_data_spec a n adj G g S). cbn [bind].
  split; intros L.
  - pose proof (fill_rows (filter up a) (p_nedges p) L) as W. apply wp_iff in W. destruct W as ([rows i] & W1 & W2). rewrite W1. cbn [bind fst] in *. congruence.
  - rewrite (overfill _ (p_nedges p)); [reflexivity|apply repeat_length|lia|lia].
Qed.
