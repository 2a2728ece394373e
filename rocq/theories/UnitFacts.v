(** UnitFacts: lemmas for C101. Multiplying all weights by a positive number that the rounding respects commutes with every
    function of MNW, MNWEnum and MNWApi but the heuristic. *)
From Verif Require Import Base MBits MUtils MGraph MApi MNW MNWEnum MNWApi Spec SpecNW SpecScript SpecUnits SpecRound NWProps NWDetApi.
Local Open Scope nat_scope.

Definition omap {A B : Type} (h : A -> B) (o : outcome A) : outcome B :=
  match o with Ok a => Ok (h a) | UB u => UB u | OutOfFuel => OutOfFuel end.

Definition smap {S S' R R' : Type} (h : S -> S') (k : R -> R') (x : step S R) : step S' R' :=
  match x with Cont s => Cont (h s) | Done r => Done (k r) end.

Lemma bind_omap {A B C} (h : A -> B) (o : outcome A) (k : B -> outcome C) : bind (omap h o) k = bind o (fun a => k (h a)).
Proof. destruct o; reflexivity. Qed.

Lemma omap_bind {A B C} (h : B -> C) (o : outcome A) (k : A -> outcome B) : omap h (bind o k) = bind o (fun a => omap h (k a)).
Proof. destruct o; reflexivity. Qed.

Lemma bind_ext {A B} (o : outcome A) (k k' : A -> outcome B) : (forall a, k a = k' a) -> bind o k = bind o k'.
Proof. intros H. destruct o; cbn [bind]; auto. Qed.

Lemma omap_id {A} (o : outcome A) : omap (fun a => a) o = o.
Proof. destruct o; reflexivity. Qed.

Lemma rd_map {A B} (f : A -> B) l i : rd (map f l) i = omap f (rd l i).
Proof. unfold rd. rewrite nth_error_map. destruct (nth_error l i); reflexivity. Qed.

Lemma upd_map {A B} (f : A -> B) l : forall i x, upd (map f l) i (f x) = map f (upd l i x).
Proof. induction l as [|y l IH]; intros [|i] x; cbn [map upd]; auto. rewrite IH. reflexivity. Qed.

Lemma wr_map {A B} (f : A -> B) l i x : wr (map f l) i (f x) = omap (map f) (wr l i x).
Proof. unfold wr. rewrite map_length. destruct (i <? length l); cbn [omap]; auto. rewrite upd_map. reflexivity. Qed.

Lemma foldM_map {X S S'} (h : S -> S') (f : X -> S -> outcome S) (f' : X -> S' -> outcome S') :
  (forall x s, f' x (h s) = omap h (f x s)) -> forall l s, foldM f' l (h s) = omap h (foldM f l s).
Proof.
  intros H. induction l as [|x l IH]; intros s; cbn [foldM]; auto.
  rewrite H, omap_bind, bind_omap. apply bind_ext. intros a. apply IH.
Qed.

Lemma for_map {S S'} (h : S -> S') lo hi (f : nat -> S -> outcome S) (f' : nat -> S' -> outcome S') :
  (forall x s, f' x (h s) = omap h (f x s)) -> forall s, for_ lo hi f' (h s) = omap h (for_ lo hi f s).
Proof. intros H s. apply foldM_map. exact H. Qed.

Lemma loopN_map {S S' R R'} (h : S -> S') (k : R -> R') (f : S -> outcome (step S R)) (f' : S' -> outcome (step S' R')) :
  (forall s, f' (h s) = omap (smap h k) (f s)) -> forall n s, loopN n f' (h s) = omap k (loopN n f s).
Proof.
  intros H. induction n as [|n IH]; intros s; cbn [loopN]; auto.
  rewrite H, omap_bind, bind_omap. apply bind_ext. intros [a|a]; cbn [smap]; auto.
Qed.

Lemma loop2_map {S S' R R'} (h : S -> S') (k : R -> R') (f : S -> outcome (step S R)) (f' : S' -> outcome (step S' R')) :
  (forall s, f' (h s) = omap (smap h k) (f s)) -> forall n s, loop2 n f' (h s) = omap (smap h k) (loop2 n f s).
Proof.
  intros H. induction n as [|n IH]; intros s; cbn [loop2]; auto.
  rewrite IH, omap_bind, bind_omap. apply bind_ext. intros [a|a]; cbn [smap]; auto.
Qed.

Lemma run2_map {S S' R R'} (h : S -> S') (k : R -> R') (f : S -> outcome (step S R)) (f' : S' -> outcome (step S' R')) :
  (forall s, f' (h s) = omap (smap h k) (f s)) -> forall n s, run2 n f' (h s) = omap k (run2 n f s).
Proof.
  intros H n s. unfold run2. rewrite (loop2_map h k f f' H), omap_bind, bind_omap. apply bind_ext. intros [a|a]; reflexivity.
Qed.

Section Units.
  Variables (rnd : Z -> Z) (c : Z).
  Hypothesis Hc : (0 < c)%Z.
  Hypothesis HR : forall x, rnd (c * x)%Z = (c * rnd x)%Z.
  Notation sc := (Z.mul c).
  Notation scs := (map (Z.mul c)).

  Lemma sc_leb x y : (c * x <=? c * y)%Z = (x <=? y)%Z.
  Proof. destruct (Z.leb_spec x y); [apply Z.leb_le|apply Z.leb_gt]; nia. Qed.
  Lemma sc_ltb x y : (c * x <? c * y)%Z = (x <? y)%Z.
  Proof. destruct (Z.ltb_spec x y); [apply Z.ltb_lt|apply Z.ltb_ge]; nia. Qed.
  Lemma sc_add x y : rnd (c * x + c * y)%Z = (c * rnd (x + y))%Z.
  Proof. rewrite <- HR. f_equal. lia. Qed.
  Lemma sc_sub x y : rnd (c * x - c * y)%Z = (c * rnd (x - y))%Z.
  Proof. rewrite <- HR. f_equal. lia. Qed.
  Lemma sc_0 : (c * 0)%Z = 0%Z.
  Proof. lia. Qed.

  Definition sw (W : nwgraph) : nwgraph := mkW (w_g W) (scs (w_wt W)) (scs (w_deg W)) (scs (w_mcs W)) (sc (w_limit W)) (sc (w_size W)) (w_loc W).
  Definition sq (q : pynw) : pynw := mkQ (option_map sw (q_G q)) (q_nvert q) (q_nedges q) (q_cur q) (q_done q).
  Definition sen (en : nenum) : nenum :=
    mkNE (map (fun x => (fst x, sc (snd x))) (ne_states en)) (sc (ne_cw en)) (ne_cur en) (ne_req en) (sc (ne_W en)) (scs (ne_buf en)).

  Lemma bind_sc {A A' B B'} (h : A -> A') (g : B -> B') o o' (k : A -> outcome B) (k' : A' -> outcome B') :
    o' = omap h o -> (forall a, k' (h a) = omap g (k a)) -> bind o' k' = omap g (bind o k).
  Proof. intros -> H. rewrite omap_bind, bind_omap. apply bind_ext. exact H. Qed.

  Lemma bind_same {A B B'} (g : B -> B') (o : outcome A) (k : A -> outcome B) (k' : A -> outcome B') :
    (forall a, k' a = omap g (k a)) -> bind o k' = omap g (bind o k).
  Proof. intros H. rewrite omap_bind. apply bind_ext. exact H. Qed.

  (** One step through two computations of the same shape *)
  Ltac same := apply bind_same; let a := fresh "a" in intros a; repeat match goal with x : (_ * _)%type |- _ => destruct x end; cbn beta iota zeta.
  Ltac read := first [apply (bind_sc sc); [apply rd_map|] | apply (bind_sc scs); [apply wr_map|] ];
               let a := fresh "x" in intros a; cbn beta iota zeta.
  Ltac norm := rewrite ?sc_add, ?sc_sub, ?sc_leb, ?sc_ltb.

  Lemma degrees_sc g ws : nw_degrees rnd g (scs ws) = omap (fun x => (scs (fst x), scs (snd x))) (nw_degrees rnd g ws).
  Proof.
    unfold nw_degrees. apply (for_map (fun x => (scs (fst x), scs (snd x))) 0 (n_vert g)) with (s := ([], [])).
    intros i [a b]. cbn [fst snd]. same.
    apply (bind_sc sc).
    - rewrite <- sc_0 at 1. apply for_map. intros x s. same. read. norm. reflexivity.
    - intros d. read. cbn [omap fst snd]. rewrite !map_app. reflexivity.
  Qed.

  Lemma bound_sc g ws ds cur : nw_bound rnd g (scs ws) (scs ds) cur = omap sc (nw_bound rnd g ws ds cur).
  Proof.
    unfold nw_bound. same. read.
    apply (bind_sc sc).
    - rewrite <- sc_0 at 1. apply for_map. intros i s. same. read. norm.
      destruct (_ <? _)%Z; [read; norm|]; reflexivity.
    - intros s. apply for_map. intros i s'. same. read. norm.
      destruct (_ <=? _)%Z; [read; norm|]; reflexivity.
  Qed.

  Lemma bounds_sc g ws ds :
    nw_bounds rnd g (scs ws) (scs ds) = omap (fun x => (scs (fst (fst x)), sc (snd (fst x)), snd x)) (nw_bounds rnd g ws ds).
  Proof.
    unfold nw_bounds. rewrite <- sc_0 at 1.
    apply (for_map (fun x => (scs (fst (fst x)), sc (snd (fst x)), snd x)) 0 (n_vert g)) with (s := ([], 0%Z, 0)).
    intros i [[ms lim] loc]. cbn [fst snd]. apply (bind_sc sc); [apply bound_sc|]. intros b. norm.
    destruct (_ <? _)%Z; cbn [omap fst snd]; rewrite map_app; reflexivity.
  Qed.

  Lemma construct_sc n cap es ws : nw_construct rnd n cap es (scs ws) = omap sw (nw_construct rnd n cap es ws).
  Proof.
    unfold nw_construct. same.
    eapply bind_sc; [apply degrees_sc|]. intros [w d]. cbn [fst snd].
    eapply bind_sc; [apply bounds_sc|]. intros [[ms lim] loc]. cbn [fst snd omap]. unfold sw. cbn [w_g w_wt w_deg w_mcs w_limit w_size w_loc].
    rewrite sc_0. reflexivity.
  Qed.

  Definition s3 (x : list N * list Z * Z) : list N * list Z * Z := (fst (fst x), scs (snd (fst x)), sc (snd x)).

  Lemma root_part_sc W v d cand strict lo hi s :
    nw_root_part rnd (sw W) v (sc d) cand strict lo hi (s3 s) = omap s3 (nw_root_part rnd W v d cand strict lo hi s).
  Proof.
    unfold nw_root_part. apply for_map. intros j [[m buf] pot]. cbn [s3 fst snd sw w_g w_deg w_wt].
    same. read. norm.
    destruct (if strict then _ else _); [reflexivity|].
    same. read. read. norm. reflexivity.
  Qed.

  Lemma root_cands_sc W cur v cand buf :
    nw_root_cands rnd (sw W) cur v cand (scs buf) = omap s3 (nw_root_cands rnd W cur v cand buf).
  Proof.
    unfold nw_root_cands. cbn [sw w_deg w_g]. read.
    apply (bind_sc s3).
    - etransitivity; [|apply root_part_sc]. unfold s3. cbn [fst snd]. rewrite sc_0. reflexivity.
    - intros s. apply root_part_sc.
  Qed.

  Lemma scan_sc g v w cand buf k0 cl0 :
    nd_scan rnd g v w cand (scs buf) k0 cl0 = omap (fun x => (fst x, sc (snd x))) (nd_scan rnd g v w cand buf k0 cl0).
  Proof.
    unfold nd_scan. rewrite <- sc_0 at 1.
    apply (loopN_map (fun x : nat * list nat * nat * Z => (fst x, sc (snd x)))) with (s := (k0, [], cl0, 0%Z)).
    intros [[[k rem] cl] pot]. cbn [fst snd].
    destruct ((k <? vN v) && negb (cl =? 0)); [|reflexivity].
    same. same.
    eapply (bind_sc (fun x : list nat * nat * Z => (fst x, sc (snd x)))).
    - destruct b; [|reflexivity]. read. norm. reflexivity.
    - intros [[r c'] p]. cbn [fst snd]. same. reflexivity.
  Qed.

  Lemma record_sc W cur res pot : nw_record (sw W) cur res (sc pot) = omap sw (nw_record W cur res pot).
  Proof.
    unfold nw_record. cbn [sw w_g w_mcs w_wt w_deg w_limit]. same. same. same. read. reflexivity.
  Qed.

  Lemma set_wg_sc W g : set_wg (sw W) g = sw (set_wg W g).
  Proof. reflexivity. Qed.
  Lemma set_wmem_sc W m : set_wmem (sw W) m = sw (set_wmem W m).
  Proof. reflexivity. Qed.

  Lemma inner_sc cur v cw buf W j st :
    nd_inner rnd cur v (sc cw) (scs buf) (sw W) j st =
    omap (fun x => let '(W, j, st, cw, f) := x in (sw W, j, st, sc cw, f)) (nd_inner rnd cur v cw buf W j st).
  Proof.
    unfold nd_inner.
    apply (loopN_map (fun x : nwgraph * nat * sstate => (sw (fst (fst x)), snd (fst x), snd x))) with (s := (W, j, st)).
    clear W j st. intros [[W j] st]. cbn [fst snd].
    destruct (j <? vN v); [|reflexivity].
    change (w_g (sw W)) with (w_g W).
    same. same. read. same. same. same.
    eapply bind_sc; [apply scan_sc|]. intros [[rem cl] cp]. cbn [fst snd]. norm. rewrite set_wg_sc. cbn [sw w_size set_wg]. norm.
    destruct (_ <? _)%Z; [|reflexivity].
    destruct (cl =? 0).
    - same. rewrite ?set_wg_sc, ?set_wmem_sc.
      eapply bind_sc; [apply record_sc|]. intros W'. change (w_g (sw W')) with (w_g W'). same. reflexivity.
    - same. norm. reflexivity.
  Qed.

  Lemma turn_sc cur v buf W l cw :
    nd_turn rnd cur v (scs buf) (sw W, l, sc cw) =
    omap (smap (fun x => (sw (fst (fst x)), snd (fst x), sc (snd x))) (fun x => (sw (fst x), snd x))) (nd_turn rnd cur v buf (W, l, cw)).
  Proof.
    unfold nd_turn. destruct l as [|st rest]; [reflexivity|].
    cbn [sw w_limit w_size w_g]. norm. destruct (_ <=? _)%Z; [reflexivity|].
    same. same.
    eapply bind_sc; [exact (inner_sc cur v cw buf (set_wmem W _) _ _)|]. intros [[[[W' j] st'] cw'] f]. cbn beta iota.
    destruct (j =? vN v); [|reflexivity].
    change (w_g (sw W')) with (w_g W'). same. same. read. norm. reflexivity.
  Qed.

  Lemma process_vertex_sc lr W buf cur :
    nd_process_vertex rnd lr (sw W) (scs buf) cur = omap (fun x => (sw (fst x), scs (snd x))) (nd_process_vertex rnd lr W buf cur).
  Proof.
    unfold nd_process_vertex. change (w_g (sw W)) with (w_g W). same. same. rewrite set_wg_sc.
    eapply bind_sc; [apply root_cands_sc|]. intros [[m b] pot]. unfold s3. cbn [fst snd].
    change (w_wt (sw W)) with (scs (w_wt W)). read.
    change (w_size (sw W)) with (sc (w_size W)). norm. destruct (_ <=? _)%Z.
    - same. reflexivity.
    - rewrite set_wg_sc.
      eapply bind_sc.
      + apply (run2_map (fun x => (sw (fst (fst x)), snd (fst x), sc (snd x))) (fun x => (sw (fst x), snd x))) with (s := (set_wg W _, _, _)).
        intros [[W' l] cw]. cbn [fst snd]. apply turn_sc.
      + intros [W' l]. cbn [fst snd]. change (w_g (sw W')) with (w_g W'). same. same. reflexivity.
  Qed.

  Lemma process_graph_sc lr junk W :
    nd_process_graph rnd lr (fun i => sc (junk i)) (sw W) = omap (fun x => (sw (fst x), snd x)) (nd_process_graph rnd lr junk W).
  Proof.
    unfold nd_process_graph. change (w_g (sw W)) with (w_g W). change (w_loc (sw W)) with (w_loc W).
    rewrite <- (map_map junk sc). eapply bind_sc; [apply process_vertex_sc|].
    intros [W1 b1]. cbn [fst snd]. change (w_g (sw W1)) with (w_g W1).
    eapply bind_sc.
    - apply (for_map (fun x => (sw (fst x), scs (snd x)))) with (s := (W1, b1)). intros i [W2 b2]. cbn [fst snd].
      change (w_mcs (sw W2)) with (scs (w_mcs W2)). read. change (w_size (sw W2)) with (sc (w_size W2)).
      change (w_limit (sw W2)) with (sc (w_limit W2)). norm. destruct (_ || _); [reflexivity|apply process_vertex_sc].
    - intros [W2 b2]. reflexivity.
  Qed.

  (** nw_enumerate.cpp *)
  Lemma load_vertex_sc lr W en :
    ne_load_vertex rnd lr (sw W) (sen en) = omap (fun x => (sw (fst (fst x)), sen (snd (fst x)), snd x)) (ne_load_vertex rnd lr W en).
  Proof.
    unfold ne_load_vertex. change (w_g (sw W)) with (w_g W). change (ne_cur (sen en)) with (ne_cur en). same. same. rewrite set_wg_sc.
    change (ne_buf (sen en)) with (scs (ne_buf en)).
    eapply bind_sc; [apply root_cands_sc|]. intros [[m b] pot]. unfold s3. cbn [fst snd].
    change (w_wt (sw W)) with (scs (w_wt W)). read.
    change (ne_W (sen en)) with (sc (ne_W en)). norm. destruct (_ <? _)%Z.
    - same. reflexivity.
    - reflexivity.
  Qed.

  Lemma ne_process_vertex_sc lr W en :
    ne_process_vertex rnd lr (sw W) (sen en) = omap (fun x => (sw (fst x), sen (snd x))) (ne_process_vertex rnd lr W en).
  Proof.
    unfold ne_process_vertex. change (w_g (sw W)) with (w_g W). change (ne_cur (sen en)) with (ne_cur en).
    change (ne_advance (sen en)) with (sen (ne_advance en)).
    apply (loopN_map (fun x => (sw (fst x), sen (snd x)))) with (s := (W, ne_advance en)). clear W en. intros [W en]. cbn [fst snd].
    change (w_g (sw W)) with (w_g W). change (ne_cur (sen en)) with (ne_cur en).
    destruct (_ <? _); [|reflexivity].
    change (w_mcs (sw W)) with (scs (w_mcs W)). read. change (ne_W (sen en)) with (sc (ne_W en)). norm.
    destruct (_ <? _)%Z; [reflexivity|].
    eapply bind_sc; [apply load_vertex_sc|]. intros [[W' en'] ok]. cbn [fst snd]. destruct ok; reflexivity.
  Qed.

  Lemma ne_scan_sc g v w cand buf req cw wj pot j :
    ne_scan rnd g v w cand (scs buf) (sc req) (sc cw) (sc wj) (sc pot) j =
    omap (fun x => (fst (fst x), sc (snd (fst x)), sc (snd x))) (ne_scan rnd g v w cand buf req cw wj pot j).
  Proof.
    unfold ne_scan. norm.
    apply (loopN_map (fun x : nat * list nat * Z * Z => (fst (fst x), sc (snd (fst x)), sc (snd x)))) with (s := (j + 1, [], pot, _)).
    intros [[[k rem] p] cp]. cbn [fst snd]. norm.
    destruct (_ && _); [|reflexivity].
    same. destruct a; cbn [negb]; [|reflexivity].
    same. same.
    eapply (bind_sc (fun x : list nat * Z => (fst x, sc (snd x)))).
    - destruct b; [reflexivity|]. read. norm. reflexivity.
    - intros [r c']. cbn [fst snd]. norm. reflexivity.
  Qed.

  Definition sres (r : ne_result) : ne_result :=
    match r with NePush s pot cw => NePush s (sc pot) (sc cw) | r => r end.

  Lemma ne_inner_sc cur v req cw pot buf W st :
    ne_inner rnd cur v (sc req) (sc cw) (sc pot) (scs buf) (sw W) st =
    omap (fun x => (sw (fst (fst x)), snd (fst x), sres (snd x))) (ne_inner rnd cur v req cw pot buf W st).
  Proof.
    unfold ne_inner.
    apply (loopN_map (fun x : nwgraph * nat * sstate => (sw (fst (fst x)), snd (fst x), snd x))) with (s := (W, s_start st, st)).
    clear W st. intros [[W j] st]. cbn [fst snd].
    change (w_g (sw W)) with (w_g W).
    destruct (j <? vN v); [|reflexivity].
    same. destruct a; cbn [negb]; [|reflexivity].
    same. same. read. same. same.
    eapply bind_sc; [apply ne_scan_sc|]. intros [[rem cp] cpot]. cbn [fst snd]. norm.
    destruct (_ <=? _)%Z; [|reflexivity].
    destruct (_ <=? _)%Z.
    - same. same. same. same. same. reflexivity.
    - same. norm. reflexivity.
  Qed.

  Lemma ne_turn_sc lr W en :
    ne_turn rnd lr (sw W, sen en) =
    omap (smap (fun x => (sw (fst x), sen (snd x))) (fun x => (sw (fst (fst x)), sen (snd (fst x)), snd x))) (ne_turn rnd lr (W, en)).
  Proof.
    unfold ne_turn. change (w_g (sw W)) with (w_g W). change (ne_cur (sen en)) with (ne_cur en).
    destruct (_ <? _); [|reflexivity].
    change (ne_states (sen en)) with (map (fun x => (fst x, sc (snd x))) (ne_states en)).
    destruct (ne_states en) as [|[st pot] rest] eqn:ES; cbn [map fst snd].
    - change (ne_req (sen en)) with (ne_req en). same. rewrite set_wg_sc. eapply bind_sc; [apply ne_process_vertex_sc|].
      intros [W' en']. reflexivity.
    - same. same. rewrite set_wmem_sc.
      eapply bind_sc; [apply ne_inner_sc|]. intros [[W' st'] r]. cbn [fst snd].
      destruct r as [| |f fp cw]; cbn [sres]; [|reflexivity|reflexivity].
      change (w_g (sw W')) with (w_g W'). change (ne_req (sen en)) with (ne_req en). same. same.
      change (ne_buf (sen en)) with (scs (ne_buf en)). read. change (ne_cw (sen en)) with (sc (ne_cw en)). norm. reflexivity.
  Qed.

  Lemma ne_process_graph_sc lr W en :
    ne_process_graph rnd lr (sw W) (sen en) = omap (fun x => (sw (fst (fst x)), sen (snd (fst x)), snd x)) (ne_process_graph rnd lr W en).
  Proof.
    unfold ne_process_graph. change (w_g (sw W)) with (w_g W).
    apply (run2_map (fun x => (sw (fst x), sen (snd x)))) with (s := (W, en)). intros [W' en']. apply ne_turn_sc.
  Qed.

  (** pynwgraph.cpp *)
  Lemma stored_sc W i : nw_stored (sw W) i = omap (fun x => (sw (fst x), snd x)) (nw_stored W i).
  Proof. unfold nw_stored. change (w_g (sw W)) with (w_g W). same. reflexivity. Qed.

  Lemma clique_weight_sc W l : nw_clique_weight rnd (sw W) l = omap sc (nw_clique_weight rnd W l).
  Proof.
    unfold nw_clique_weight. rewrite <- sc_0 at 1. apply foldM_map. intros x s. change (w_g (sw W)) with (w_g W).
    destruct (_ <? _); [|reflexivity]. change (w_wt (sw W)) with (scs (w_wt W)). read. norm. reflexivity.
  Qed.

  Lemma loaded_sc p : nw_loaded (sq p) = option_map sw (nw_loaded p).
  Proof. unfold nw_loaded, sq. cbn [q_G q_nvert]. destruct (q_G p); cbn [option_map]; [destruct (_ =? _)|]; reflexivity. Qed.

  Lemma get_max_clique_sc e p lb ub dfs :
    nw_get_max_clique rnd (env_in c e) (sq p) (sc lb) (sc ub) false dfs =
    omap (fun x => (sq (fst x), snd x)) (nw_get_max_clique rnd e p lb ub false dfs).
  Proof.
    unfold nw_get_max_clique.
    change (mkQ (q_G (sq p)) (q_nvert (sq p)) (q_nedges (sq p)) 0 (q_done (sq p))) with (sq (mkQ (q_G p) (q_nvert p) (q_nedges p) 0 (q_done p))).
    rewrite loaded_sc. destruct (nw_loaded _) as [W|]; cbn [option_map]; [|reflexivity].
    cbn [sw w_size w_limit w_g w_wt w_deg w_mcs w_loc]. norm.
    set (W1 := mkW (w_g W) (w_wt W) (w_deg W) (w_mcs W) (if (ub <? w_limit W)%Z then ub else w_limit W) (if (w_size W <? lb)%Z then lb else w_size W) (w_loc W)).
    assert (E : forall b x y, (if b : bool then sc x else sc y) = sc (if b then x else y)) by (intros [|] x y; reflexivity).
    rewrite !E. change (mkW _ _ _ _ _ _ _) with (sw W1) at 1.
    eapply (bind_sc (fun x => (sw (fst x), snd x))).
    - unfold nw_find_max_cliques. cbn [bind]. destruct dfs; [|reflexivity]. apply process_graph_sc.
    - intros [W2 cur]. cbn [fst snd]. change (w_loc (sw W2)) with (w_loc W2).
      eapply bind_sc; [apply stored_sc|]. intros [W3 ans]. cbn [fst snd].
      eapply bind_sc; [apply clique_weight_sc|]. intros wt. norm. reflexivity.
  Qed.

  Lemma get_correspondence_sc e p len2 lb ub dfs :
    nw_get_correspondence rnd (env_in c e) (sq p) len2 (sc lb) (sc ub) false dfs =
    omap (fun x => (sq (fst x), snd x)) (nw_get_correspondence rnd e p len2 lb ub false dfs).
  Proof.
    unfold nw_get_correspondence. eapply bind_sc; [apply get_max_clique_sc|]. intros [p' r]. cbn [fst snd].
    destruct r; [same|]; reflexivity.
  Qed.

  Lemma reset_sc p : nw_reset_search (sq p) = omap sq (nw_reset_search p).
  Proof.
    unfold nw_reset_search. cbn [sq q_G]. destruct (q_G p) as [W|]; cbn [option_map omap]; [|reflexivity].
    unfold sq, sw. cbn [q_G q_nvert q_nedges q_cur q_done option_map w_size w_limit w_g w_wt w_deg w_mcs w_loc]. rewrite sc_0. reflexivity.
  Qed.

  Lemma next_clique_sc lr p en :
    nw_next_clique rnd lr (sq p) (sen en) = omap (fun x => (sq (fst (fst x)), sen (snd (fst x)), snd x)) (nw_next_clique rnd lr p en).
  Proof.
    unfold nw_next_clique. cbn [sq q_G]. destruct (q_G p) as [W|] eqn:EG; cbn [option_map]; [|reflexivity].
    eapply bind_sc; [apply ne_process_graph_sc|]. intros [[W' en'] v]. cbn [fst snd q_nvert].
    destruct (_ <? _); [reflexivity|].
    eapply bind_sc; [apply stored_sc|]. intros [W3 ans]. reflexivity.
  Qed.

  Lemma next_correspondence_sc lr len2 p en :
    nw_next_correspondence rnd lr len2 (sq p) (sen en) =
    omap (fun x => (sq (fst (fst x)), sen (snd (fst x)), snd x)) (nw_next_correspondence rnd lr len2 p en).
  Proof.
    unfold nw_next_correspondence. eapply bind_sc; [apply next_clique_sc|]. intros [[p' en'] r]. cbn [fst snd].
    destruct r; [same|]; reflexivity.
  Qed.

  Lemma all_weights_sc p :
    nw_all_weights (sq p) = omap (fun r => match r with Ret l => Ret (scs l) | Raise x => Raise x end) (nw_all_weights p).
  Proof.
    unfold nw_all_weights. rewrite loaded_sc. destruct (nw_loaded p) as [W|]; cbn [option_map]; [|reflexivity].
    eapply (bind_sc scs).
    - apply (foldM_map scs) with (s := []). intros i l. change (w_wt (sw W)) with (scs (w_wt W)). read.
      cbn [omap]. rewrite map_app. reflexivity.
    - intros l. cbn [omap]. destruct l; reflexivity.
  Qed.

  Lemma as_pygraph_sc p : nw_as_pygraph (sq p) = nw_as_pygraph p.
  Proof. unfold nw_as_pygraph, sq. cbn [q_G q_nvert q_nedges q_cur q_done]. destruct (q_G p); reflexivity. Qed.

  Definition sits (its : list nenum) := map sen its.

  Lemma replace_map {A B} (f : A -> B) i x l : replace i (f x) (map f l) = map f (replace i x l).
  Proof. unfold replace. rewrite map_app. cbn [map]. rewrite firstn_map, skipn_map. reflexivity. Qed.

  Lemma call_sc s p its : by_heuristic s = false ->
    ncall_run rnd (call_in c s) (sq p) (map sen its) =
    omap (fun x => (sq (fst (fst x)), map sen (snd (fst x)), seen_in c (snd x))) (ncall_run rnd s p its).
  Proof.
    destruct s as [e lb ub h d|e l2 lb ub h d| |e T|lr i|lr l2 i|cl| |v| | | |]; cbn [by_heuristic call_in ncall_run]; intros HB; subst.
    - eapply bind_sc; [apply get_max_clique_sc|]. intros [p' r]. reflexivity.
    - eapply bind_sc; [apply get_correspondence_sc|]. intros [p' r]. reflexivity.
    - eapply bind_sc; [apply reset_sc|]. intros p'. reflexivity.
    - unfold nw_all_cliques. rewrite loaded_sc. destruct (nw_loaded p) as [W|]; cbn [option_map]; [|reflexivity].
      cbn [omap fst snd]. rewrite map_app. unfold new_nenum. cbn [map sen ne_states ne_cw ne_cur ne_req ne_W ne_buf].
      change (w_g (sw W)) with (w_g W). unfold sen. cbn [ne_states ne_cw ne_cur ne_req ne_W ne_buf map]. rewrite map_map, sc_0. reflexivity.
    - rewrite nth_error_map. destruct (nth_error its i) as [en|]; cbn [option_map]; [|reflexivity].
      eapply bind_sc; [apply next_clique_sc|]. intros [[p' en'] r]. cbn [omap fst snd]. rewrite replace_map. reflexivity.
    - rewrite nth_error_map. destruct (nth_error its i) as [en|]; cbn [option_map]; [|reflexivity].
      eapply bind_sc; [apply next_correspondence_sc|]. intros [[p' en'] r]. cbn [omap fst snd]. rewrite replace_map. reflexivity.
    - unfold nw_get_clique_weight. rewrite loaded_sc. destruct (nw_loaded p) as [W|]; cbn [option_map]; [|reflexivity].
      rewrite clique_weight_sc. destruct (nw_clique_weight rnd W cl); reflexivity.
    - rewrite all_weights_sc. destruct (nw_all_weights p) as [[l|x]| |]; reflexivity.
    - unfold nw_vertex_data. cbn [sq q_nvert q_G]. destruct (_ <? _); [reflexivity|]. destruct (q_G p) as [W|]; cbn [option_map]; [|reflexivity].
      change (w_g (sw W)) with (w_g W). change (w_wt (sw W)) with (scs (w_wt W)). rewrite rd_map.
      destruct (vertex_data (w_g W) v); [|reflexivity|reflexivity]. cbn [bind]. destruct (rd (w_wt W) v); reflexivity.
    - unfold nw_to_matrix. rewrite as_pygraph_sc. same. reflexivity.
    - unfold nw_to_adjlist. rewrite as_pygraph_sc. same. reflexivity.
    - reflexivity.
    - reflexivity.
  Qed.

  Lemma observe_sc s : forall p its, forallb (fun x => negb (by_heuristic x)) s = true ->
    nobserve rnd (map (call_in c) s) (sq p) (map sen its) = all_seen_in c (nobserve rnd s p its).
  Proof.
    induction s as [|x s IH]; intros p its HB; [reflexivity|].
    cbn [forallb map nobserve] in *. apply andb_prop in HB as [Hx HB]. rewrite call_sc by (destruct (by_heuristic x); [discriminate|reflexivity]).
    rewrite bind_omap. destruct (ncall_run rnd x p its) as [[[p' its'] y]| |]; [|reflexivity|reflexivity]. cbn [bind fst snd].
    rewrite IH by exact HB. destruct (nobserve rnd s p' its'); reflexivity.
  Qed.

  Definition sexc (r : exc pynw) : exc pynw := match r with Ret p => Ret (sq p) | Raise x => Raise x end.

  Lemma load_sc p n m cap es ws : q_G p = None -> nw_load_graph rnd p n m cap es (scs ws) = omap sq (nw_load_graph rnd p n m cap es ws).
  Proof. intros _. unfold nw_load_graph. eapply bind_sc; [apply construct_sc|]. reflexivity. Qed.

  Lemma from_edgelist_sc rows n ws : nw_from_edgelist rnd rows n (scs ws) = omap sexc (nw_from_edgelist rnd rows n ws).
  Proof.
    unfold nw_from_edgelist. rewrite map_length. destruct (negb _); [reflexivity|]. destruct (read_rows n rows); [|reflexivity].
    replace (0%Z :: scs ws) with (scs (0%Z :: ws)) by (cbn [map]; rewrite sc_0; reflexivity).
    eapply bind_sc; [apply load_sc; reflexivity|]. reflexivity.
  Qed.

  Lemma from_matrix_sc r k M ws : nw_from_matrix rnd r k M (scs ws) = omap sexc (nw_from_matrix rnd r k M ws).
  Proof.
    unfold nw_from_matrix. rewrite map_length. destruct (negb _); [reflexivity|]. destruct (negb _); [reflexivity|].
    destruct (matrix_cells r M) as [l cnt].
    replace (0%Z :: scs ws) with (scs (0%Z :: ws)) by (cbn [map]; rewrite sc_0; reflexivity).
    eapply bind_sc; [apply load_sc; reflexivity|]. reflexivity.
  Qed.

  Lemma from_adjlist_sc n m A ws : nw_from_adjlist rnd n m A (scs ws) = omap sexc (nw_from_adjlist rnd n m A ws).
  Proof.
    unfold nw_from_adjlist. rewrite map_length.
    assert (HG : (if negb (n + 1 =? length A) || negb (n =? length ws) then Ok (Raise ECountMismatch)
      else x <- read_sets n 0 A A;;
      match x with
      | Raise e => Ok (Raise e)
      | Ret (l, e) =>
          if negb (e / 2 =? m) then Ok (Raise EEdgeCount)
          else p <- nw_load_graph rnd new_pynw n m (push_cap (length l) 0 0) l (scs ws);; Ok (Ret p)
      end) = omap sexc (if negb (n + 1 =? length A) || negb (n =? length ws) then Ok (Raise ECountMismatch)
      else x <- read_sets n 0 A A;;
      match x with
      | Raise e => Ok (Raise e)
      | Ret (l, e) =>
          if negb (e / 2 =? m) then Ok (Raise EEdgeCount)
          else p <- nw_load_graph rnd new_pynw n m (push_cap (length l) 0 0) l ws;; Ok (Ret p)
      end)).
    { destruct (_ || _); [reflexivity|]. same. destruct a as [[l e]|x]; [|reflexivity]. destruct (negb _); [reflexivity|].
      eapply bind_sc; [apply load_sc; reflexivity|]. reflexivity. }
    destruct A as [|[|y l] A]; [exact HG|exact HG|reflexivity].
  Qed.
End Units.

(** The theorems *)
Lemma load_units rnd c x w : (0 < c)%Z -> respects c rnd -> nload rnd x (map (Z.mul c) w) = omap (sexc c) (nload rnd x w).
Proof.
  intros Hc HR. destruct x; cbn [nload]; [apply from_edgelist_sc|apply from_matrix_sc|apply from_adjlist_sc]; assumption.
Qed.

Lemma programs_units rnd c : (0 < c)%Z -> respects c rnd -> forall x w p s, nload rnd x w = Ok (Ret p) -> forallb (fun y => negb (by_heuristic y)) s = true ->
  exists p', nload rnd x (map (Z.mul c) w) = Ok (Ret p') /\ nobserve rnd (map (call_in c) s) p' [] = all_seen_in c (nobserve rnd s p []).
Proof.
  intros Hc HR x w p s E HB. exists (sq c p). split.
  - rewrite load_units by assumption. rewrite E. reflexivity.
  - apply (observe_sc rnd c Hc HR s p []). exact HB.
Qed.

Lemma load_raises rnd c : (0 < c)%Z -> respects c rnd -> forall x w,
  (forall u, nload rnd x w = UB u <-> nload rnd x (map (Z.mul c) w) = UB u) /\ (forall y, nload rnd x w = Ok (Raise y) <-> nload rnd x (map (Z.mul c) w) = Ok (Raise y)).
Proof.
  intros Hc HR x w. rewrite load_units by assumption. destruct (nload rnd x w) as [[p|y]|u|]; cbn [omap sexc]; split; intros z; split; intros E; try discriminate; exact E.
Qed.

Section Two.
  Variables (rnd : Z -> Z) (c : Z).
  Hypothesis Hc : (0 < c)%Z.
  Hypothesis HR : respects c rnd.
  Variables (x : nsource) (w : list Z) (p p' : pynw) (n : nat) (adj : nat -> nat -> Prop).
  Hypothesis L : nload rnd x w = Ok (Ret p).
  Hypothesis L' : nload rnd x (map (Z.mul c) w) = Ok (Ret p').
  Hypothesis MK : nmade rnd p n adj w.
  Hypothesis MK' : nmade rnd p' n adj (map (Z.mul c) w).
  Hypothesis HE : has_edge adj.
  Hypothesis LV : nstorage_live p.

  Lemma unit_object : p' = sq c p.
  Proof. rewrite load_units in L' by assumption. rewrite L in L'. cbn [omap sexc] in L'. injection L' as <-. reflexivity. Qed.

  Lemma unit_live : nstorage_live p'.
  Proof. unfold nstorage_live. rewrite unit_object, as_pygraph_sc. exact LV. Qed.

  Lemma search_units e e' lb ub dfs : npermutes e -> npermutes e' ->
    answer (nw_get_max_clique rnd e' p' (c * lb) (c * ub) false dfs) = answer (nw_get_max_clique rnd e p lb ub false dfs).
  Proof.
    intros HP HP'. clear MK. rewrite (nw_get_same rnd p' n adj _ MK' HE unit_live p' e' (env_in c e) (c * lb) (c * ub) false dfs (nh_start rnd p') HP') by discriminate.
    rewrite unit_object, get_max_clique_sc by assumption. destruct (nw_get_max_clique rnd e p lb ub false dfs) as [[q r]| |]; reflexivity.
  Qed.

  Lemma drain_sc lr fuel : forall q en, nw_drain rnd fuel lr (sq c q) (sen c en) =
    omap (fun y => (sq c (fst (fst y)), sen c (snd (fst y)), snd y)) (nw_drain rnd fuel lr q en).
  Proof.
    induction fuel as [|fuel IH]; intros q en; [reflexivity|]. cbn [nw_drain].
    rewrite next_clique_sc by assumption. rewrite bind_omap, omap_bind. apply bind_ext. intros [[q1 en1] r]. cbn [fst snd].
    destruct r as [d|y]; [|reflexivity]. rewrite IH, bind_omap, omap_bind. apply bind_ext. intros [[q2 en2] l]. reflexivity.
  Qed.

  Lemma list_units e e' T en en' lr lr' : nw_all_cliques e p T = Ret en -> nw_all_cliques e' p' (c * T) = Ret en' ->
    exists l, forall fuel, length l < fuel -> (exists q y, nw_drain rnd fuel lr p en = Ok (q, y, l)) /\ (exists q y, nw_drain rnd fuel lr' p' en' = Ok (q, y, l)).
  Proof.
    intros E E'.
    assert (ES : nw_all_cliques (env_in c e) p' (c * T) = Ret (sen c en)).
    { rewrite unit_object. unfold nw_all_cliques in *. rewrite loaded_sc. destruct (nw_loaded p) as [W|]; cbn [option_map]; [|discriminate].
      injection E as <-. unfold new_nenum, sen. cbn [ne_states ne_cw ne_cur ne_req ne_W ne_buf map].
      change (w_g (sw c W)) with (w_g W). rewrite map_map, Z.mul_0_r. reflexivity. }
    destruct (nw_list_same rnd p n adj w MK HE LV p e e T en en lr lr (nh_start rnd p) E E) as (q1 & l & H1).
    destruct (nw_list_same rnd p' n adj _ MK' HE unit_live p' (env_in c e) e' (c * T) (sen c en) en' lr lr' (nh_start rnd p') ES E') as (q2 & l2 & H2).
    assert (l2 = l).
    { destruct (H1 (S (length l + length l2))) as [[y1 D1] _]; [lia|]. destruct (H2 (S (length l + length l2))) as [[y2 D2] _]; [lia|].
      rewrite unit_object, drain_sc, D1 in D2. cbn [omap fst snd] in D2. injection D2 as _ _ <-. reflexivity. }
    subst l2. exists l. intros fuel Hf. split.
    - destruct (H1 fuel Hf) as [[y D] _]. exists q1, y. exact D.
    - destruct (H2 fuel Hf) as [_ [y D]]. exists q2, y. exact D.
  Qed.

  Lemma weight_units d : weight (map (Z.mul c) w) d = (c * weight w d)%Z.
  Proof.
    induction d as [|v d IH]; cbn [weight]; [lia|]. rewrite IH. unfold vweight.
    replace (0%Z :: map (Z.mul c) w) with (map (Z.mul c) (0%Z :: w)) by (cbn [map]; f_equal; lia).
    replace 0%Z with (c * 0)%Z at 2 by lia. rewrite map_nth. lia.
  Qed.

  Lemma heaviest_units e e' lb ub lb' ub' heur heur' d d' : sums_exact rnd w -> nonnegative w -> npermutes e -> npermutes e' ->
    all_within n adj w ub -> all_within n adj (map (Z.mul c) w) ub' ->
    answer (nw_get_max_clique rnd e p lb ub heur true) = Ok (Ret d) -> answer (nw_get_max_clique rnd e' p' lb' ub' heur' true) = Ok (Ret d') ->
    2 <= length d -> 2 <= length d' -> weight w d = weight w d'.
  Proof.
    intros SE NN HP HP' HU HU' A A' Hd Hd'.
    assert (SE' : sums_exact rnd (map (Z.mul c) w)) by (intros l ND; rewrite weight_units, HR, SE by exact ND; reflexivity).
    assert (NN' : nonnegative (map (Z.mul c) w)) by (intros y I; apply in_map_iff in I as (z & <- & I); specialize (NN z I); nia).
    assert (CL : clique n adj d /\ all_within n adj w (weight w d)).
    { pose proof (nw_clique rnd p n adj w MK HE LV p e lb ub heur true (nh_start rnd p) HP) as H.
      pose proof (nw_heaviest rnd p n adj w MK HE LV SE NN p e lb ub heur (or_introl eq_refl) HP HU) as H2.
      destruct (nw_get_max_clique rnd e p lb ub heur true) as [[q r]| |]; cbn [answer ends_with] in *; try discriminate. injection A as ->. split; [|exact H2].
      destruct H as [[-> | H] _]; [cbn in Hd; lia|exact H]. }
    assert (CL' : clique n adj d' /\ all_within n adj (map (Z.mul c) w) (weight (map (Z.mul c) w) d')).
    { pose proof (nw_clique rnd p' n adj _ MK' HE unit_live p' e' lb' ub' heur' true (nh_start rnd p') HP') as H.
      pose proof (nw_heaviest rnd p' n adj _ MK' HE unit_live SE' NN' p' e' lb' ub' heur' (or_introl eq_refl) HP' HU') as H2.
      destruct (nw_get_max_clique rnd e' p' lb' ub' heur' true) as [[q r]| |]; cbn [answer ends_with] in *; try discriminate. injection A' as ->. split; [|exact H2].
      destruct H as [[-> | H] _]; [cbn in Hd'; lia|exact H]. }
    destruct CL as [C1 W1], CL' as [C2 W2]. specialize (W1 d' C2 Hd'). specialize (W2 d C1 Hd). rewrite !weight_units in W2. nia.
  Qed.
End Two.

Lemma half_even_respects k : (0 <= k)%Z -> respects (2 ^ k) half_even.
Proof.
  intros Hk x. unfold half_even.
  assert (P : (0 < 2 ^ k)%Z) by (apply Z.pow_pos_nonneg; lia).
  destruct (Z.eq_dec x 0) as [-> | Hx]; [rewrite Z.mul_0_r; cbn; lia|].
  rewrite Z.abs_mul, (Z.abs_eq (2 ^ k)) by lia.
  assert (EL : Z.log2 (2 ^ k * Z.abs x) = (Z.log2 (Z.abs x) + k)%Z) by (rewrite Z.mul_comm, Z.log2_mul_pow2; lia).
  rewrite EL. set (e := Z.log2 (Z.abs x)). assert (He : (0 <= e)%Z) by apply Z.log2_nonneg.
  destruct (Z.leb_spec (e - 52) 0) as [Hs|Hs].
  - destruct (Z.leb_spec (e + k - 52) 0) as [Ht|Ht]; [reflexivity|].
    set (t := (e + k - 52)%Z). assert (ES : (2 ^ k = 2 ^ (k - t) * 2 ^ t)%Z) by (rewrite <- Z.pow_add_r; [f_equal|unfold t|unfold t]; lia).
    assert (Pt : (0 < 2 ^ t)%Z) by (apply Z.pow_pos_nonneg; unfold t; lia).
    assert (EX : (2 ^ k * x = (2 ^ (k - t) * x) * 2 ^ t)%Z) by (rewrite ES; ring).
    rewrite EX, Z.mod_mul, Z.div_mul by lia.
    destruct (Z.ltb_spec (2 * 0) (2 ^ t)); [reflexivity|lia].
  - destruct (Z.leb_spec (e + k - 52) 0); [lia|].
    replace (e + k - 52)%Z with (k + (e - 52))%Z by lia. set (t := (e - 52)%Z) in *.
    assert (Pt : (0 < 2 ^ t)%Z) by (apply Z.pow_pos_nonneg; lia).
    rewrite Z.pow_add_r by lia. rewrite Z.div_mul_cancel_l, Z.mul_mod_distr_l by lia.
    replace (2 * (2 ^ k * (x mod 2 ^ t)))%Z with (2 ^ k * (2 * (x mod 2 ^ t)))%Z by ring.
    assert (LT : forall a b, (2 ^ k * a <? 2 ^ k * b)%Z = (a <? b)%Z).
    { intros a b. destruct (Z.ltb_spec a b); [apply Z.ltb_lt|apply Z.ltb_ge]; nia. }
    rewrite !LT. destruct (_ <? _)%Z; [ring|]. destruct (_ <? _)%Z; [ring|]. destruct (Z.even _); ring.
Qed.
