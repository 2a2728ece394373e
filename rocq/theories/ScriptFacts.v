(** ScriptFacts: objects loaded from the same graph cannot be told apart. *)
From Verif Require Import Base MBits MUtils MGraph MEnum MApi MExt MNW MNWEnum MNWApi Spec SpecNW SpecScript BaseFacts ConstructFacts LoadFacts ExportFacts LoadProps NWFacts NWProps.
Local Open Scope nat_scope.

(** ** n_edges is only carried along *)
Definition renum (m : nat) (p : pygraph) : pygraph := mkP (p_G p) (p_nvert p) m (p_cur p) (p_done p).
Definition nrenum (m : nat) (p : pynw) : pynw := mkQ (q_G p) (q_nvert p) m (q_cur p) (q_done p).

Definition mapO {A B} (f : A -> B) (o : outcome A) : outcome B :=
  match o with Ok x => Ok (f x) | UB u => UB u | OutOfFuel => OutOfFuel end.

Lemma mapO_bind {A B C} (f : B -> C) (o : outcome A) (k : A -> outcome B) : mapO f (bind o k) = bind o (fun x => mapO f (k x)).
Proof. destruct o; reflexivity. Qed.

Lemma bind_mapO {A B C} (f : A -> B) (o : outcome A) (k : B -> outcome C) : bind (mapO f o) k = bind o (fun x => k (f x)).
Proof. destruct o; reflexivity. Qed.

Lemma bind_ext {A B} (o : outcome A) (f g : A -> outcome B) : (forall x, f x = g x) -> bind o f = bind o g.
Proof. intros H. destruct o; simpl; auto. Qed.

Lemma renum_get m e p lb ub heur dfs cont :
  get_max_clique e (renum m p) lb ub heur dfs cont = mapO (fun '(p, r) => (renum m p, r)) (get_max_clique e p lb ub heur dfs cont).
Proof.
  unfold get_max_clique, loaded, renum. destruct p as [[g|] nv ne cu dn]; cbn [p_G p_nvert p_nedges p_cur p_done]; [|reflexivity].
  destruct (nv =? 0); [reflexivity|]. rewrite mapO_bind. apply bind_ext. intros [g1 c1]. rewrite mapO_bind. apply bind_ext. intros [g2 ans].
  destruct (length ans <? lb); reflexivity.
Qed.

Lemma renum_corr m e p len2 lb ub heur dfs cont :
  get_correspondence e (renum m p) len2 lb ub heur dfs cont = mapO (fun '(p, r) => (renum m p, r)) (get_correspondence e p len2 lb ub heur dfs cont).
Proof.
  unfold get_correspondence. rewrite renum_get, bind_mapO, mapO_bind. apply bind_ext. intros [p' [c|x]]; [|reflexivity].
  rewrite mapO_bind. apply bind_ext. reflexivity.
Qed.

Lemma renum_next m lr p en : next_clique lr (renum m p) en = mapO (fun '(p, en, r) => (renum m p, en, r)) (next_clique lr p en).
Proof.
  unfold next_clique, renum. destruct p as [[g|] nv ne cu dn]; cbn [p_G p_nvert p_nedges p_cur p_done]; [|reflexivity].
  rewrite mapO_bind. apply bind_ext. intros [[g1 en1] v]. destruct (nv <? v); [reflexivity|]. rewrite mapO_bind. apply bind_ext. intros [g2 c]. reflexivity.
Qed.

Lemma renum_next_corr m lr len2 p en :
  next_correspondence lr len2 (renum m p) en = mapO (fun '(p, en, r) => (renum m p, en, r)) (next_correspondence lr len2 p en).
Proof.
  unfold next_correspondence. rewrite renum_next, bind_mapO, mapO_bind. apply bind_ext. intros [[p' en'] [c|x]]; [|reflexivity].
  rewrite mapO_bind. apply bind_ext. reflexivity.
Qed.

Lemma renum_run m c p its : gcall_run c (renum m p) its = mapO (fun '(p, its, x) => (renum m p, its, x)) (gcall_run c p its).
Proof.
  destruct c; unfold gcall_run.
  - rewrite renum_get, bind_mapO, mapO_bind. apply bind_ext. intros [p' r]. reflexivity.
  - rewrite renum_corr, bind_mapO, mapO_bind. apply bind_ext. intros [p' r]. reflexivity.
  - unfold reset_search, renum. destruct p as [[g|] nv ne cu dn]; reflexivity.
  - unfold all_cliques, loaded, renum. destruct p as [[g|] nv ne cu dn]; cbn; [|reflexivity]. destruct (nv =? 0); reflexivity.
  - destruct (nth_error its i) as [en|]; [|reflexivity]. rewrite renum_next, bind_mapO, mapO_bind. apply bind_ext. intros [[p' en'] r]. reflexivity.
  - destruct (nth_error its i) as [en|]; [|reflexivity]. rewrite renum_next_corr, bind_mapO, mapO_bind. apply bind_ext. intros [[p' en'] r]. reflexivity.
  - change (vertex_neighbors (renum m p) v) with (vertex_neighbors p v). rewrite mapO_bind. apply bind_ext. reflexivity.
  - change (to_matrix (renum m p)) with (to_matrix p). rewrite mapO_bind. apply bind_ext. reflexivity.
  - change (to_adjlist (renum m p)) with (to_adjlist p). rewrite mapO_bind. apply bind_ext. reflexivity.
  - reflexivity.
  - reflexivity.
  - reflexivity.
Qed.

Lemma renum_observe m s : forall p its, observe s (renum m p) its = observe s p its.
Proof.
  induction s as [|c s IH]; intros p its; [reflexivity|]. cbn [observe]. rewrite renum_run, bind_mapO. apply bind_ext.
  intros [[p' its'] x]. rewrite IH. reflexivity.
Qed.

Lemma made_indistinct p q n adj adj' : made p n adj -> made q n adj' -> (forall u v, adj u v <-> adj' u v) ->
  (storage_live p <-> storage_live q) -> forall s, observe s p [] = observe s q [].
Proof.
  intros H1 H2 E LL s. destruct (made_same p q n adj adj' H1 H2 E) as (g & h & G1 & G2 & F & NV & NC & ND).
  assert (g = h).
  { apply forget_live_inj; auto. destruct (bits_live g) eqn:L1, (bits_live h) eqn:L2; auto; exfalso.
    - destruct (proj1 LL (ex_intro _ g (conj G1 L1))) as (h' & G2' & L'). congruence.
    - destruct (proj2 LL (ex_intro _ h (conj G2 L2))) as (g' & G1' & L'). congruence. }
  subst h. replace p with (renum (p_nedges p) q); [apply renum_observe|].
  unfold renum. destruct p, q. cbn in *. congruence.
Qed.

(** ** NWGraph *)
Lemma nrenum_get rnd m e p lb ub heur dfs :
  nw_get_max_clique rnd e (nrenum m p) lb ub heur dfs = mapO (fun '(p, r) => (nrenum m p, r)) (nw_get_max_clique rnd e p lb ub heur dfs).
Proof.
  unfold nw_get_max_clique, nw_loaded, nrenum. destruct p as [[W|] nv ne cu dn]; cbn [q_G q_nvert q_nedges q_cur q_done]; [|reflexivity].
  destruct (nv =? 0); [reflexivity|]. rewrite mapO_bind. apply bind_ext. intros [W1 c1]. rewrite mapO_bind. apply bind_ext. intros [W2 ans].
  rewrite mapO_bind. apply bind_ext. reflexivity.
Qed.

Lemma nrenum_corr rnd m e p len2 lb ub heur dfs :
  nw_get_correspondence rnd e (nrenum m p) len2 lb ub heur dfs = mapO (fun '(p, r) => (nrenum m p, r)) (nw_get_correspondence rnd e p len2 lb ub heur dfs).
Proof.
  unfold nw_get_correspondence. rewrite nrenum_get, bind_mapO, mapO_bind. apply bind_ext. intros [p' [c|x]]; [|reflexivity].
  rewrite mapO_bind. apply bind_ext. reflexivity.
Qed.

Lemma nrenum_next rnd m lr p en : nw_next_clique rnd lr (nrenum m p) en = mapO (fun '(p, en, r) => (nrenum m p, en, r)) (nw_next_clique rnd lr p en).
Proof.
  unfold nw_next_clique, nrenum. destruct p as [[g|] nv ne cu dn]; cbn [q_G q_nvert q_nedges q_cur q_done]; [|reflexivity].
  rewrite mapO_bind. apply bind_ext. intros [[g1 en1] v]. destruct (nv <? v); [reflexivity|]. rewrite mapO_bind. apply bind_ext. intros [g2 c]. reflexivity.
Qed.

Lemma nrenum_next_corr rnd m lr len2 p en :
  nw_next_correspondence rnd lr len2 (nrenum m p) en = mapO (fun '(p, en, r) => (nrenum m p, en, r)) (nw_next_correspondence rnd lr len2 p en).
Proof.
  unfold nw_next_correspondence. rewrite nrenum_next, bind_mapO, mapO_bind. apply bind_ext. intros [[p' en'] [c|x]]; [|reflexivity].
  rewrite mapO_bind. apply bind_ext. reflexivity.
Qed.

Lemma nrenum_run rnd m c p its : ncall_run rnd c (nrenum m p) its = mapO (fun '(p, its, x) => (nrenum m p, its, x)) (ncall_run rnd c p its).
Proof.
  destruct c; unfold ncall_run.
  - rewrite nrenum_get, bind_mapO, mapO_bind. apply bind_ext. intros [p' r]. reflexivity.
  - rewrite nrenum_corr, bind_mapO, mapO_bind. apply bind_ext. intros [p' r]. reflexivity.
  - unfold nw_reset_search, nrenum. destruct p as [[g|] nv ne cu dn]; reflexivity.
  - unfold nw_all_cliques, nw_loaded, nrenum. destruct p as [[g|] nv ne cu dn]; cbn; [|reflexivity]. destruct (nv =? 0); reflexivity.
  - destruct (nth_error its i) as [en|]; [|reflexivity]. rewrite nrenum_next, bind_mapO, mapO_bind. apply bind_ext. intros [[p' en'] r]. reflexivity.
  - destruct (nth_error its i) as [en|]; [|reflexivity]. rewrite nrenum_next_corr, bind_mapO, mapO_bind. apply bind_ext. intros [[p' en'] r]. reflexivity.
  - change (nw_get_clique_weight rnd (nrenum m p) c) with (nw_get_clique_weight rnd p c). rewrite mapO_bind. apply bind_ext. reflexivity.
  - change (nw_all_weights (nrenum m p)) with (nw_all_weights p). rewrite mapO_bind. apply bind_ext. reflexivity.
  - change (nw_vertex_data (nrenum m p) v) with (nw_vertex_data p v). rewrite mapO_bind. apply bind_ext. reflexivity.
  - change (nw_to_matrix (nrenum m p)) with (nw_to_matrix p). rewrite mapO_bind. apply bind_ext. reflexivity.
  - change (nw_to_adjlist (nrenum m p)) with (nw_to_adjlist p). rewrite mapO_bind. apply bind_ext. reflexivity.
  - reflexivity.
  - reflexivity.
Qed.

Lemma nrenum_observe rnd m s : forall p its, nobserve rnd s (nrenum m p) its = nobserve rnd s p its.
Proof.
  induction s as [|c s IH]; intros p its; [reflexivity|]. cbn [nobserve]. rewrite nrenum_run, bind_mapO. apply bind_ext.
  intros [[p' its'] x]. rewrite IH. reflexivity.
Qed.

(** The weights, weighted degrees and bounds are computed from the edges and vertices alone. *)
Lemma nw_degrees_live rnd g h w : forget_live g = forget_live h -> nw_degrees rnd g w = nw_degrees rnd h w.
Proof. destruct g, h. unfold forget_live. cbn. intros E. injection E as -> -> -> -> -> -> -> -> -> -> -> -> ->. reflexivity. Qed.

Lemma nw_bounds_live rnd g h w d : forget_live g = forget_live h -> nw_bounds rnd g w d = nw_bounds rnd h w d.
Proof. destruct g, h. unfold forget_live. cbn. intros E. injection E as -> -> -> -> -> -> -> -> -> -> -> -> ->. reflexivity. Qed.

Lemma nmade_loaded rnd p n adj w : nmade rnd p n adj w -> length w = n /\ exists m cap edges, nw_load_graph rnd new_pynw n m cap edges (0%Z :: w) = Ok p.
Proof.
  intros H. split; [apply (nmade_made _ _ _ _ _ H)|]. destruct H as [rows k ws q HF E|k M ws q HF E].
  - unfold nw_from_edgelist in E. destruct (negb (length ws =? k)); [discriminate|]. destruct (read_rows k rows) as [l|]; [|discriminate].
    destruct (nw_load_graph rnd _ _ _ _ _ _) as [p'| |] eqn:EL; cbn [bind] in E; try discriminate. injection E as ->. eauto.
  - unfold nw_from_matrix in E. destruct (negb (k =? k)); [discriminate|]. destruct (negb (length ws =? k)); [discriminate|]. destruct (matrix_cells k M) as [l cnt].
    destruct (nw_load_graph rnd _ _ _ _ _ _) as [p'| |] eqn:EL; cbn [bind] in E; try discriminate. injection E as ->. eauto.
Qed.

Lemma nw_load_parts rnd n m cap edges w p : nw_load_graph rnd new_pynw n m cap edges w = Ok p -> exists W, p = mkQ (Some W) n m 0 false
  /\ exists ws ds ms lim loc, nw_degrees rnd (w_g W) w = Ok (ws, ds) /\ nw_bounds rnd (w_g W) ws ds = Ok (ms, lim, loc) /\ W = mkW (w_g W) ws ds ms lim 0%Z loc.
Proof.
  unfold nw_load_graph, nw_construct. destruct (construct n cap edges) as [g| |]; cbn [bind]; try discriminate.
  destruct (nw_degrees rnd g w) as [[ws ds]| |] eqn:ED; cbn [bind]; try discriminate.
  destruct (nw_bounds rnd g ws ds) as [[[ms lim] loc]| |] eqn:EB; cbn [bind]; try discriminate.
  intros E. injection E as <-. eexists. split; [reflexivity|]. exists ws, ds, ms, lim, loc. auto.
Qed.

Lemma nmade_same rnd p q n adj adj' w : nmade rnd p n adj w -> nmade rnd q n adj' w -> (forall u v, adj u v <-> adj' u v) ->
  exists W V, q_G p = Some W /\ q_G q = Some V /\ forget_live (w_g W) = forget_live (w_g V) /\ w_wt W = w_wt V /\ w_deg W = w_deg V
    /\ w_mcs W = w_mcs V /\ w_limit W = w_limit V /\ w_size W = w_size V /\ w_loc W = w_loc V
    /\ q_nvert p = q_nvert q /\ q_cur p = q_cur q /\ q_done p = q_done q.
Proof.
  intros H1 H2 E. destruct (nmade_made _ _ _ _ _ H1) as [_ M1]. destruct (nmade_made _ _ _ _ _ H2) as [_ M2].
  destruct (made_same _ _ n adj adj' M1 M2 E) as (g & h & G1 & G2 & F & _).
  destruct (nmade_loaded _ _ _ _ _ H1) as (_ & m1 & c1 & e1 & L1). destruct (nmade_loaded _ _ _ _ _ H2) as (_ & m2 & c2 & e2 & L2).
  destruct (nw_load_parts _ _ _ _ _ _ _ L1) as (W & -> & ws & ds & ms & lim & loc & D1 & B1 & EW).
  destruct (nw_load_parts _ _ _ _ _ _ _ L2) as (V & -> & ws' & ds' & ms' & lim' & loc' & D2 & B2 & EV).
  cbn [nw_as_pygraph q_G option_map p_G] in G1, G2. injection G1 as <-. injection G2 as <-.
  rewrite (nw_degrees_live _ _ _ _ F), D2 in D1. injection D1 as -> ->.
  rewrite (nw_bounds_live _ _ _ _ _ F), B2 in B1. injection B1 as -> -> ->.
  exists W, V. rewrite EW, EV. cbn. repeat (split; auto).
Qed.

Lemma nmade_indistinct rnd p q n adj adj' w : nmade rnd p n adj w -> nmade rnd q n adj' w -> (forall u v, adj u v <-> adj' u v) ->
  (nstorage_live p <-> nstorage_live q) -> forall s, nobserve rnd s p [] = nobserve rnd s q [].
Proof.
  intros H1 H2 E LL s. destruct (nmade_same rnd p q n adj adj' w H1 H2 E) as (W & V & G1 & G2 & F & E1 & E2 & E3 & E4 & E5 & E6 & NV & NC & ND).
  assert (w_g W = w_g V).
  { apply forget_live_inj; auto. unfold nstorage_live, storage_live in LL.
    assert (P1 : p_G (nw_as_pygraph p) = Some (w_g W)) by (cbn; rewrite G1; reflexivity).
    assert (P2 : p_G (nw_as_pygraph q) = Some (w_g V)) by (cbn; rewrite G2; reflexivity).
    destruct (bits_live (w_g W)) eqn:L1, (bits_live (w_g V)) eqn:L2; auto; exfalso.
    - destruct (proj1 LL (ex_intro _ _ (conj P1 L1))) as (h' & G2' & L'). congruence.
    - destruct (proj2 LL (ex_intro _ _ (conj P2 L2))) as (g' & G1' & L'). congruence. }
  assert (W = V) by (destruct W, V; cbn in *; congruence). subst V.
  replace p with (nrenum (q_nedges p) q); [apply nrenum_observe|]. unfold nrenum. destruct p, q. cbn in *. congruence.
Qed.
