(** SearchProps: the statements of P_Search, from ApiFacts, EnumApi and SatFacts. *)
From Verif Require Import Base MBits MUtils MGraph MHeur MStack MRec MEnum MApi Spec SpecBits BaseFacts BitsFacts SetFacts SortFacts RowFacts ConstructFacts CardFacts LoadFacts SearchBase StackFacts RecFacts HeurFacts SearchFacts CliqueFacts ApiFacts EnumFacts EnumApi SatFacts.
From Coq Require Import Sorting.Sorted Sorting.Permutation.
Local Open Scope nat_scope.
Local Arguments Nat.sub : simpl never.
Local Arguments Nat.mul : simpl never.

Lemma stores_fun a g k s s' : stores a g k s -> stores a g k s' -> s = s'.
Proof.
  intros (K & [_ R] & _ & _ & <-) (K' & [_ R'] & _ & _ & <-). apply card_ext. intros i Hi.
  assert (H : i < 64 * words (rlen a k)) by (pose proof (words_bounds (rlen a k)); lia).
  pose proof (R i H) as E. rewrite (R' i H) in E. destruct (Nat.ltb_spec i (rlen a k)); [auto|lia].
Qed.

Lemma stores_mem a nv g g' k s : (forall i, i < eb a nv -> nth i (edge_bits g') 0%N = nth i (edge_bits g) 0%N) -> k < nv ->
  length (edge_bits g') = length (edge_bits g) -> stores a g k s -> stores a g' k s.
Proof.
  intros H Hk L (K & R & K1). exists K. split; auto. eapply rep_nth; [|exact L|exact R]. intros i Hi. apply H.
  pose proof (block_end a nv k Hk). lia.
Qed.

Lemma never_late_lawful e lb : permutes e -> never_late e -> lawful e lb.
Proof.
  intros P L. split; auto. right. unfold never_late, steady in *. destruct (clock e); auto. intros i j _ E. rewrite L in E. discriminate.
Qed.

Lemma untimed_never_late e : untimed e -> never_late e.
Proof. unfold untimed, never_late. intros ->. exact I. Qed.

(** ** C11, C14, C16: histories *)
Lemma history_ends p n adj q e lb ub heur dfs cont : made p n adj -> has_edge adj -> storage_live p -> history p q -> lawful e lb ->
  ends_with (get_max_clique e q lb ub heur dfs cont) (fun r => released (fst r)
     /\ match snd r with Ret c => clique n adj c /\ lb <= length c | Raise x => x = EBounds end).
Proof.
  intros M HE LV H LA. destruct (made_hinv p n adj M HE LV) as (a & cap & m & g & GR & B & -> & _ & _ & _ & _ & _ & HI & _).
  pose proof (has_edge_n a n adj GR HE) as Hn.
  pose proof (history_hinv a n adj GR _ q Hn HI H) as HQ.
  eapply wp_mono; [apply (hinv_get a n adj GR q e lb ub heur dfs cont Hn HQ LA)|].
  intros [q' r] [(g' & mcs & m' & cur & fin & E & G & Z & SS) R]. cbn [fst snd] in *. split; auto.
  exists g'. subst q'. split; auto. split; auto. intros i Hi. apply (proj2 G). lia.
Qed.

(** ** A search of a fresh graph *)
Section Fresh.
  Variables (p : pygraph) (n : nat) (adj : nat -> nat -> Prop).
  Hypothesis M : made p n adj.
  Hypothesis HE : has_edge adj.
  Hypothesis LV : storage_live p.

  Lemma edge_clique : exists d, clique n adj d /\ length d = 2.
  Proof.
    destruct HE as (u & v & A). pose proof (made_simple _ _ _ M) as SI. pose proof (SI u v A) as (A' & NE & Hu). pose proof (SI v u A') as (_ & _ & Hv).
    assert (W : forall x y, adj x y -> adj y x -> x < y -> 1 <= x <= n -> 1 <= y <= n -> exists d, clique n adj d /\ length d = 2).
    { intros x y A1 A2 L Hx Hy. exists [x; y]. split; auto. split; [repeat constructor; auto|]. split.
      - intros z [<-|[<-|[]]]; auto.
      - intros z w [<-|[<-|[]]] [<-|[<-|[]]] NE'; auto; congruence. }
    destruct (Nat.lt_trichotomy u v) as [L|[L|L]]; [eauto|congruence|eauto].
  Qed.

  (** Either the bound was beaten, or the answer is a single vertex. *)
  Lemma fresh_call e lb ub heur dfs cont : lawful e lb ->
    ends_with (get_max_clique e p lb ub heur dfs cont) (fun r => exists c, clique n adj c
       /\ snd r = (if length c <? lb then Raise EBounds else Ret c)
       /\ (lb < length c \/ length c = 1)
       /\ (dfs = false -> heur = false -> length c = 1)
       /\ (dfs = true -> never_late e -> p_done (fst r) = true
           /\ (lb < length c /\ (forall d, clique n adj d -> Nat.min ub (length d) <= length c)
               \/ length c = 1 /\ forall d, clique n adj d -> Nat.min ub (length d) <= Nat.max 1 lb))).
  Proof.
    intros LA. destruct (made_hinv p n adj M HE LV) as (a & cap & m & g & GR & B & -> & _ & G & Z & W & S1 & _ & L2).
    pose proof (has_edge_n a n adj GR HE) as Hn. clear M LV.
    assert (NOSEARCH : heur = false -> dfs = false -> wp (get_max_clique e (mkP (Some g) n m 0 false) lb ub heur dfs cont)
       (fun r => exists c, length c = 1 /\ snd r = (if length c <? lb then Raise EBounds else Ret c))).
    { intros -> ->. rewrite get_unfold by auto. unfold find_max_cliques. cbn [bind].
      replace (if cont && negb (0 =? 0) then false else false) with false by (destruct cont; auto). cbn [bind].
      destruct (stored_clique_spec a n adj GR (prepared g lb ub) (bound a) (CUR_MAX_LOC g) 1) as (c & E1 & E2 & E3).
      - apply (go_shape _ _ _ _ _ (proj1 (prepared_good a n g _ lb ub G))).
      - pose proof (go_loc _ _ _ _ _ (proj1 G)). destruct Z. lia.
      - exact S1.
      - assert (X : forall cl : option (nat -> bool), wp (x <- match cl with Some _ => Ok (prepared g lb ub, if cont then 0 else 0) | None => Ok (prepared g lb ub, if cont then 0 else 0) end;;
            (let '(g', cur) := x in '(g', ans) <- stored_clique g' (CUR_MAX_LOC g');;
             if length ans <? lb then Ok (mkP (Some g') n m cur (n <=? cur), Raise EBounds) else Ok (mkP (Some g') n m cur (n <=? cur), Ret ans)))
            (fun r => exists c, length c = 1 /\ snd r = (if length c <? lb then Raise EBounds else Ret c))).
        { intros cl. replace (match cl with Some _ => Ok (prepared g lb ub, if cont then 0 else 0) | None => Ok (prepared g lb ub, if cont then 0 else 0) end)
            with (Ok (prepared g lb ub, if cont then 0 else 0)) by (destruct cl; auto). cbn [bind].
          change (CUR_MAX_LOC (prepared g lb ub)) with (CUR_MAX_LOC g). rewrite E1. cbn [bind].
          destruct (length c <? lb) eqn:EL; apply wp_ok; exists c; split; auto; cbn [snd]; rewrite EL; auto. }
        exact (X (clock e)). }
    eapply wp_mono; [apply wp_lp; [apply (get_core a n adj GR e g (bound a) m 0 false lb ub heur dfs cont LA Hn G Z)|]|].
    { instantiate (1 := fun r => heur = false -> dfs = false -> exists c, length c = 1 /\ snd r = (if length c <? lb then Raise EBounds else Ret c)).
      destruct heur; [eapply lp_mono; [apply lp_true|]; discriminate|]. destruct dfs; [eapply lp_mono; [apply lp_true|]; discriminate|].
      specialize (NOSEARCH eq_refl eq_refl). destruct (get_max_clique _ _ _ _ _ _ _) as [x| |]; cbn [ends_with lp] in *; auto. }
    intros [p' r] [(g' & mcs' & cur' & c & E & G' & Z' & C' & CC & S & ER & F1 & F2 & F3) NS]. cbn [fst snd] in *. subst p' r.
    exists c. split; auto. split; auto.
    assert (KEY : (lb < length c /\ CUR_MAX_SIZE g' = length c) \/ (length c = 1 /\ CUR_MAX_SIZE g' = lb)).
    { pose proof (go_loc _ _ _ _ _ (proj1 G')) as GL.
      destruct (ca_best _ _ _ _ C') as [(X1 & X2 & X3)|(X1 & X2)].
      - right. cbn [prepared set_limit set_best CUR_MAX_SIZE CUR_MAX_LOC edge_bits] in *. rewrite (b_max _ _ _ _ B) in X1. split; [|lia].
        eapply stores_fun; [exact S|]. rewrite X2 in *. eapply stores_mem; [exact X3|lia|exact (ca_len _ _ _ _ C')|exact S1].
      - left. cbn [prepared set_limit set_best CUR_MAX_SIZE] in X1. rewrite (stores_fun _ _ _ _ _ S X2). lia. }
    split; [tauto|]. split.
    { intros HD HH. destruct (NS HH HD) as (c' & L & E'). clear NS F1 F2 F3.
      destruct KEY as [[K _]|[K _]]; auto.
      destruct (Nat.ltb_spec (length c) lb); [lia|]. rewrite L in E'. destruct (1 <? lb); [discriminate|]. injection E' as ->; exact L. }
    intros HD NL. destruct (F2 HD NL) as [F4 F5]. split; [cbn [p_done]; apply Nat.leb_le; lia|].
    specialize (F5 (bound_svalid a n)).
    assert (OPT : forall d, clique n adj d -> Nat.min ub (length d) <= Nat.max 1 (CUR_MAX_SIZE g')).
    { intros d D. destruct (Nat.le_gt_cases (length d) 1) as [L|L]; [lia|].
      destruct F5 as [F5|F5].
      - pose proof (no_larger_clique a n adj GR (CLIQUE_LIMIT g) d W D ltac:(lia)). lia.
      - pose proof (no_larger_clique a n adj GR (CUR_MAX_SIZE g') d ltac:(intros v Hv; apply F5; auto; right; right; lia) D ltac:(lia)). lia. }
    destruct KEY as [[K1 K2]|[K1 K2]]; rewrite K2 in OPT; [left|right]; split; auto.
    intros d D. specialize (OPT d D). lia.
  Qed.
End Fresh.

(** ** C15, C17, C18, C19: the bounds of a fresh search *)
Section FreshProps.
  Variables (p : pygraph) (n : nat) (adj : nat -> nat -> Prop).
  Hypothesis M : made p n adj.
  Hypothesis HE : has_edge adj.
  Hypothesis LV : storage_live p.
  Variables (e : env) (lb ub : nat) (heur cont : bool).
  Hypothesis HP : permutes e.
  Hypothesis NL : never_late e.

  Lemma fresh_max : (forall d, clique n adj d -> length d <= ub) ->
    ends_with (get_max_clique e p lb ub heur true cont) (fun r => p_done (fst r) = true /\
      ((exists c, snd r = Ret c /\ maximum_clique n adj c /\ lb < length c)
       \/ snd r = Raise EBounds /\ forall d, clique n adj d -> length d <= lb)).
  Proof.
    intros HU. eapply wp_mono; [apply (fresh_call p n adj M HE LV e lb ub heur true cont (never_late_lawful e lb HP NL))|].
    intros [q r] (c & C & ER & _ & _ & F). cbn [fst snd] in *. destruct (F eq_refl NL) as [F1 F2]. split; auto.
    destruct F2 as [[F2 F3]|[F2 F3]].
    - left. exists c. rewrite ER. destruct (Nat.ltb_spec (length c) lb); [lia|]. split; auto. split; auto. split; auto.
      intros d D. specialize (F3 d D). specialize (HU d D). lia.
    - right. destruct (edge_clique p n adj M HE) as (d & D & L). pose proof (F3 d D) as B. pose proof (HU d D) as B'.
      rewrite ER, F2. destruct (Nat.ltb_spec 1 lb); [|lia]. split; auto.
      intros d' D'. specialize (F3 d' D'). specialize (HU d' D'). lia.
  Qed.

  Lemma fresh_upper :
    ends_with (get_max_clique e p lb ub heur true cont) (fun r =>
      match snd r with
      | Ret c => clique n adj c /\ forall d, clique n adj d -> Nat.min ub (length d) <= length c
      | Raise x => x = EBounds /\ forall d, clique n adj d -> Nat.min ub (length d) <= lb
      end).
  Proof.
    eapply wp_mono; [apply (fresh_call p n adj M HE LV e lb ub heur true cont (never_late_lawful e lb HP NL))|].
    intros [q r] (c & C & ER & _ & _ & F). cbn [fst snd] in *. destruct (F eq_refl NL) as [_ F2].
    destruct (edge_clique p n adj M HE) as (d0 & D0 & L0). rewrite ER.
    destruct F2 as [[F2 F3]|[F2 F3]]; destruct (Nat.ltb_spec (length c) lb); try lia; auto.
    - split; auto. intros d D. specialize (F3 d D). lia.
    - split; auto. intros d D. specialize (F3 d D). lia.
  Qed.
End FreshProps.

(** ** C20: repeating a call *)
Lemma repeat_same p n adj q e e' lb ub heur dfs cont q1 c1 : made p n adj -> has_edge adj -> storage_live p -> history p q ->
  permutes e -> untimed e -> untimed e' -> srt_fun e' = srt_fun e ->
  get_max_clique e q lb ub heur dfs cont = Ok (q1, Ret c1) ->
  ends_with (get_max_clique e' q1 lb ub heur dfs cont) (fun r => exists c2, snd r = Ret c2 /\ clique n adj c2 /\ length c2 = length c1).
Proof.
  intros M HE LV H HP U U' ES E. destruct (made_hinv p n adj M HE LV) as (a & cap & m & g & GR & B & -> & _ & _ & _ & _ & _ & HI & _).
  pose proof (has_edge_n a n adj GR HE) as Hn. pose proof (gra_ctx a n adj GR) as HC. pose proof (gra_len0 a n adj GR) as R0.
  assert (LA : lawful e lb) by (apply never_late_lawful, untimed_never_late; auto).
  assert (HP' : permutes e') by (unfold permutes in *; rewrite ES; auto).
  assert (LA' : lawful e' lb) by (apply never_late_lawful, untimed_never_late; auto).
  destruct (history_hinv a n adj GR _ q Hn HI H) as (g0 & mcs & m0 & cur0 & fin0 & -> & G & Z & _). clear B H HI.
  set (h1 := if cont && negb (cur0 =? 0) then false else heur).
  assert (S1 : wp (get_max_clique e (mkP (Some g0) n m0 cur0 fin0) lb ub heur dfs cont)
     (fun r => exists g' mcs' cur', fst r = mkP (Some g') n m0 cur' (n <=? cur') /\ good a (n + 1) g' mcs' /\ settled a (n + 1) (srt_fun e) h1 dfs g' mcs')).
  { rewrite get_unfold by auto. apply wp_bind.
    eapply wp_mono; [apply wp_lp; [apply (find_max_cliques_spec a n adj GR e (prepared g0 lb ub) mcs (if cont then cur0 else 0) h1 dfs HP (prepared_good a n g0 mcs lb ub G))|]|].
    { instantiate (1 := fun r => exists mcs', good a (n + 1) (fst r) mcs' /\ settled a (n + 1) (srt_fun e) h1 dfs (fst r) mcs').
      pose proof (search_settles a (n + 1) HC R0 e (prepared g0 lb ub) mcs (if cont then cur0 else 0) h1 dfs HP U (prepared_good a n g0 mcs lb ub G)) as X.
      destruct (find_max_cliques _ _ _ _ _); cbn [ends_with lp] in *; auto. }
    intros [g' i] [(mcs1 & G1 & C1 & Z1 & _) (mcs' & G' & ST)]. cbn [fst] in *.
    assert (ZZ : nz a g') by (apply Z1; [destruct LA as [_ [LA|LA]]; auto; left; cbn [prepared set_limit set_best CUR_MAX_SIZE]; lia|apply prepared_nz; auto]).
    pose proof (go_loc _ _ _ _ _ (proj1 G')) as GL. destruct (go_bits _ _ _ _ _ (proj1 G') _ GL) as (s & S).
    destruct (stored_clique_spec a n adj GR g' mcs' (CUR_MAX_LOC g') s (go_shape _ _ _ _ _ (proj1 G'))) as (c & E1 & E2 & E3); auto.
    { destruct ZZ. lia. }
    rewrite E1. cbn [bind].
    assert (X : forall o : outcome (pygraph * exc (list nat)), (exists x, o = Ok (mkP (Some g') n m0 i (n <=? i), x)) ->
       wp o (fun r => exists g' mcs' cur', fst r = mkP (Some g') n m0 cur' (n <=? cur') /\ good a (n + 1) g' mcs' /\ settled a (n + 1) (srt_fun e) h1 dfs g' mcs')).
    { intros o [x ->]. apply wp_ok. exists g', mcs', i. auto. }
    apply X. destruct (length c <? lb); eauto. }
  pose proof (get_core a n adj GR e g0 mcs m0 cur0 fin0 lb ub heur dfs cont LA Hn G Z) as K1.
  rewrite E in S1, K1. cbn [ends_with fst snd] in S1, K1.
  destruct S1 as (g1 & mcs1 & cur1 & E1 & G1 & ST). destruct K1 as (g1' & mcs1' & cur1' & c & E1' & _ & Z1 & C1 & CC & S & ER & CU1 & CU2 & _).
  rewrite E1 in E1'. injection E1' as <- <-. subst q1.
  assert (c1 = c /\ lb <= length c) as [-> LB].
  { destruct (Nat.ltb_spec (length c) lb); [discriminate|]. injection ER as ->. auto. }
  set (h2 := if cont && negb (cur1 =? 0) then false else heur).
  assert (HH : h2 = true -> h1 = true).
  { unfold h1, h2. destruct cont; cbn [andb]; auto. destruct dfs.
    - destruct (CU2 eq_refl (untimed_never_late e U)) as [X _]. destruct (Nat.eqb_spec cur1 0); [lia|discriminate].
    - rewrite CU1 by auto. auto. }
  assert (CL : CUR_MAX_SIZE (prepared g1 lb ub) = CUR_MAX_SIZE g1).
  { pose proof (called_le _ _ _ _ C1) as X. cbn [prepared set_limit set_best CUR_MAX_SIZE] in *. lia. }
  assert (CLm : CLIQUE_LIMIT (prepared g1 lb ub) = CLIQUE_LIMIT g1).
  { pose proof (core_lim _ _ (ca_core _ _ _ _ C1)) as X. cbn [prepared set_limit set_best CLIQUE_LIMIT] in *. lia. }
  assert (ST2 : settled a (n + 1) (srt_fun e') h2 dfs (prepared g1 lb ub) mcs1).
  { rewrite ES. destruct ST as [T1 T2]. split.
    - intros X. specialize (T1 (HH X)). unfold hspent in *. rewrite CL, CLm. exact T1.
    - intros X. specialize (T2 X). unfold spent in *. rewrite CL, CLm. exact T2. }
  rewrite get_unfold by auto. fold h2. apply wp_bind.
  eapply wp_mono; [apply wp_lp; [apply (search_still a (n + 1) HC R0 e' (prepared g1 lb ub) mcs1 (if cont then cur1 else 0) h2 dfs HP' U' (prepared_good a n g1 mcs1 lb ub G1) (prepared_nz a g1 lb ub Z1) ST2)|]|].
  { instantiate (1 := fun r => exists mcs2, shape a (n + 1) (fst r) mcs2).
    pose proof (find_max_cliques_spec a n adj GR e' (prepared g1 lb ub) mcs1 (if cont then cur1 else 0) h2 dfs HP' (prepared_good a n g1 mcs1 lb ub G1)) as X.
    destruct (find_max_cliques _ _ _ _ _); cbn [ends_with lp] in *; auto. destruct X as (mcs2 & X & _). exists mcs2. apply (go_shape _ _ _ _ _ (proj1 X)). }
  intros [g2 i2] [[E2 C2] [mcs2 SH2]]. cbn [fst] in *.
  pose proof (go_loc _ _ _ _ _ (proj1 G1)) as GL.
  destruct (ca_best _ _ _ _ C2) as [(B1 & B2 & B3)|(B1 & _)]; [|lia].
  change (CUR_MAX_LOC (prepared g1 lb ub)) with (CUR_MAX_LOC g1) in B2. change (edge_bits (prepared g1 lb ub)) with (edge_bits g1) in B3.
  assert (S2 : stores a g2 (CUR_MAX_LOC g2) (length c)).
  { rewrite B2. eapply stores_mem; [exact B3|exact GL|exact (ca_len _ _ _ _ C2)|exact S]. }
  destruct (stored_clique_spec a n adj GR g2 mcs2 (CUR_MAX_LOC g2) (length c) SH2) as (c2 & X1 & X2 & X3); auto.
  { rewrite B2. destruct Z1. lia. }
  rewrite X1. cbn [bind]. destruct (Nat.ltb_spec (length c2) lb); [lia|]. apply wp_ok. exists c2. auto.
Qed.

(** ** C21: reset_search after unhurried calls *)
Section Unhurried.
  Variables (a : pairs) (n : nat) (adj : nat -> nat -> Prop).
  Hypothesis GR : gra a n adj.
  Hypothesis HE : has_edge adj.

  Lemma wide_ub M : (forall d, clique n adj d -> length d <= M) -> forall v, v < n + 1 -> no_larger a v M.
  Proof.
    intros H v Hv K R P C. destruct (Nat.eq_dec v 0) as [->|NE].
    - pose proof (card_bound (rlen a 0) K) as B. rewrite (gra_len0 a n adj GR) in *. lia.
    - pose proof (H _ (rooted_clique a n adj GR v K ltac:(lia) R P)) as B. rewrite map_length in B. exact B.
  Qed.

  Definition uinv (p : pygraph) : Prop :=
    exists g mcs m cur fin, p = mkP (Some g) n m cur fin /\ good a (n + 1) g mcs /\ nz a g /\ wide a (n + 1) g /\ svalid a (n + 1) mcs.

  Lemma wide_prepared g lb ub : wide a (n + 1) g -> (forall d, clique n adj d -> length d <= ub) -> wide a (n + 1) (prepared g lb ub).
  Proof.
    intros W H v Hv. cbn [prepared set_limit CLIQUE_LIMIT]. intros K R P C.
    pose proof (W v Hv K R P C). pose proof (wide_ub ub H v Hv K R P C). lia.
  Qed.

  Lemma unhurried_uinv p q : uinv p -> unhurried n adj p q -> uinv q.
  Proof.
    intros H0. pose proof (has_edge_n a n adj GR HE) as Hn.
    induction 1 as [|q e lb ub heur dfs cont q' r H IH HP NL HU E|q q' H IH E|q lr k fuel q' en l H IH E|q lr en q' en' r H IH L E]; auto.
    - destruct IH as (g & mcs & m & cur & fin & -> & G & Z & W & V).
      pose proof (get_core a n adj GR e g mcs m cur fin lb ub heur dfs cont (never_late_lawful e lb HP NL) Hn G Z) as K.
      rewrite E in K. destruct K as (g' & mcs' & cur' & c & E1 & G' & Z' & C' & _ & _ & _ & _ & _ & K). cbn [fst] in E1.
      exists g', mcs', m, cur', (n <=? cur'). do 3 (split; auto).
      pose proof (wide_prepared g lb ub W HU) as W'. split; auto. unfold wide. rewrite (core_lim _ _ (ca_core _ _ _ _ C')). exact W'.
    - destruct IH as (g & mcs & m & cur & fin & -> & G & Z & W & V). injection E as <-.
      exists (set_best g 1 (CUR_MAX_LOC g)), mcs, m, 0, false. split; auto. split; [|split; [|split]]; auto.
      + destruct G as [[X1 X2 X3 X4 X5] ZZ]. destruct X1. split; [split; auto; split; auto|auto].
      + destruct Z as [Z1 Z2]. split; auto. discriminate.
    - destruct IH as (g & mcs & m & cur & fin & -> & G & Z & W & V). destruct (drain_good a n adj GR _ _ _ _ _ _ _ _ _ _ _ G E) as (g' & -> & G' & KE & SC).
      exists g', mcs, m, cur, fin. do 2 (split; auto). split; [eapply kept_nz; eauto|]. split; auto. eapply kept_wide; eauto.
    - destruct IH as (g & mcs & m & cur & fin & -> & G & Z & W & V).
      pose proof (next_small a n adj GR g mcs lr m cur fin en G L) as K. rewrite E in K. destruct K as (_ & _ & _ & g' & -> & G' & KE & SC).
      exists g', mcs, m, cur, fin. do 2 (split; auto). split; [eapply kept_nz; eauto|]. split; auto. eapply kept_wide; eauto.
  Qed.
End Unhurried.

(** A full search whose recorded size is at most 1 finds a maximum clique by itself. *)
Lemma small_max_gen half a n adj g2 mcs m1 fin cur0 e lb ub heur cont : (half = true -> untimed e) -> gra a n adj -> has_edge adj -> (exists d, clique n adj d /\ 2 <= length d) ->
  goodR half a (n + 1) g2 mcs -> nz a g2 -> wide a (n + 1) g2 -> svalid a (n + 1) mcs -> CUR_MAX_SIZE g2 <= 1 ->
  permutes e -> never_late e -> cont = false \/ cur0 = 0 -> (exists d, clique n adj d /\ lb < length d) ->
  (forall d, clique n adj d -> length d <= ub) ->
  ends_with (get_max_clique e (mkP (Some g2) n m1 cur0 fin) lb ub heur true cont) (fun r => exists c, snd r = Ret c /\ maximum_clique n adj c).
Proof.
  intros HH GR HE (d2 & D2 & L2) G2 Z2 W1 V1 SZ HP NL CT (d0 & D0 & L0) HU. pose proof (has_edge_n a n adj GR HE) as Hn.
  eapply wp_mono; [apply (get_core_gen a n adj GR half e g2 mcs m1 cur0 fin lb ub heur true cont HH (never_late_lawful e lb HP NL) Hn G2 Z2)|].
  intros [p' r] (g' & mcs' & cur' & c & E & G' & Z' & C' & CC & S & ER & _ & F2 & _). cbn [fst snd] in *.
  destruct (F2 eq_refl NL) as [_ F]. specialize (F V1).
  assert (OPT : forall d, clique n adj d -> 2 <= length d -> length d <= CUR_MAX_SIZE g').
  { intros d D L. destruct F as [F|F].
    - pose proof (no_larger_clique a n adj GR (CLIQUE_LIMIT g2) d W1 D L). specialize (HU d D). lia.
    - apply (no_larger_clique a n adj GR (CUR_MAX_SIZE g') d); auto. intros v Hv. apply F; auto. right. destruct CT as [CT|CT]; auto. right. lia. }
  pose proof (OPT d2 D2 ltac:(lia)) as O2.
  assert (LC : length c = CUR_MAX_SIZE g').
  { destruct (ca_best _ _ _ _ C') as [(X1 & X2 & X3)|(X1 & X2)]; [|apply (stores_fun _ _ _ _ _ S X2)].
    cbn [prepared set_limit set_best CUR_MAX_SIZE] in X1. exfalso.
    destruct (Nat.le_gt_cases 2 (length d0)); [specialize (OPT d0 D0 H)|]; lia. }
  assert (LB : lb <= length c).
  { rewrite LC. pose proof (called_le _ _ _ _ C') as X. cbn [prepared set_limit set_best CUR_MAX_SIZE] in X. lia. }
  exists c. rewrite ER. destruct (Nat.ltb_spec (length c) lb); [lia|]. split; auto. split; auto.
  intros d D. destruct (Nat.le_gt_cases 2 (length d)); [rewrite LC; auto|lia].
Qed.

Lemma small_max a n adj g2 mcs m1 fin cur0 e lb ub heur cont : gra a n adj -> has_edge adj -> (exists d, clique n adj d /\ 2 <= length d) ->
  good a (n + 1) g2 mcs -> nz a g2 -> wide a (n + 1) g2 -> svalid a (n + 1) mcs -> CUR_MAX_SIZE g2 <= 1 ->
  permutes e -> never_late e -> cont = false \/ cur0 = 0 -> (exists d, clique n adj d /\ lb < length d) ->
  (forall d, clique n adj d -> length d <= ub) ->
  ends_with (get_max_clique e (mkP (Some g2) n m1 cur0 fin) lb ub heur true cont) (fun r => exists c, snd r = Ret c /\ maximum_clique n adj c).
Proof. apply (small_max_gen false). discriminate. Qed.

Lemma reset_max p n adj q q' e lb ub heur cont : made p n adj -> has_edge adj -> storage_live p -> unhurried n adj p q ->
  reset_search q = Ok q' -> permutes e -> never_late e -> (exists d, clique n adj d /\ lb < length d) ->
  (forall d, clique n adj d -> length d <= ub) ->
  ends_with (get_max_clique e q' lb ub heur true cont) (fun r => exists c, snd r = Ret c /\ maximum_clique n adj c).
Proof.
  intros M HE LV H ER HP NL X HU.
  destruct (edge_clique p n adj M HE) as (d2 & D2 & L2).
  destruct (made_hinv p n adj M HE LV) as (a & cap & m & g & GR & B & -> & _ & G & Z & W & S1 & _).
  assert (U0 : uinv a n (mkP (Some g) n m 0 false)).
  { exists g, (bound a), m, 0, false. do 4 (split; auto). apply bound_svalid. }
  destruct (unhurried_uinv a n adj GR HE _ _ U0 H) as (g1 & mcs & m1 & cur & fin & -> & G1 & Z1 & W1 & V1).
  injection ER as <-.
  apply (small_max a n adj (set_best g1 1 (CUR_MAX_LOC g1)) mcs); auto.
  - exists d2. split; auto. lia.
  - destruct G1 as [[X1 X2 X3 X4 X5] ZZ]. destruct X1. split; [split; auto; split; auto|auto].
  - destruct Z1; split; auto; discriminate.
Qed.

(** ** C32: list(all_cliques(k)), then a first search *)
Lemma enumerate_max p n adj lr k fuel q en l e lb ub heur cont : made p n adj -> has_edge adj -> storage_live p ->
  drain fuel lr p (new_enum k) = Ok (q, en, l) -> permutes e -> never_late e -> (exists d, clique n adj d /\ lb < length d) ->
  (forall d, clique n adj d -> length d <= ub) ->
  ends_with (get_max_clique e q lb ub heur true cont) (fun r => exists c, snd r = Ret c /\ maximum_clique n adj c).
Proof.
  intros M HE LV E HP NL X HU. destruct (edge_clique p n adj M HE) as (d2 & D2 & L2).
  destruct (made_hinv p n adj M HE LV) as (a & cap & m & g & GR & B & -> & _ & G & Z & W & S1 & _).
  destruct (drain_good a n adj GR _ _ _ _ _ _ _ _ _ _ _ G E) as (g' & -> & G' & KE & SC).
  apply (small_max a n adj g' (bound a)); auto.
  - exists d2. split; auto. lia.
  - eapply kept_nz; eauto.
  - eapply kept_wide; eauto.
  - apply bound_svalid.
  - rewrite (ke_size _ _ _ _ KE), (b_max _ _ _ _ B). lia.
Qed.

(** ** C28-C31, C35: all_cliques *)
Lemma enumerate_history p n adj q lr k : made p n adj -> has_edge adj -> storage_live p -> history p q ->
  exists q' en l, (forall fuel, length l < fuel -> drain fuel lr q (new_enum k) = Ok (q', en, l)) /\ released q' /\ NoDup l
    /\ (forall d, In d l -> clique n adj d /\ length d = k)
    /\ (k = 0 -> l = []) /\ (k = 1 -> l = map (fun v => [v]) (seq 1 n))
    /\ (2 <= k -> forall d, In d l -> ~ first_at_1 adj d).
Proof.
  intros M HE LV H. destruct (made_hinv p n adj M HE LV) as (a & cap & m & g & GR & B & -> & _ & _ & _ & _ & _ & HI & _).
  pose proof (has_edge_n a n adj GR HE) as Hn.
  destruct (history_hinv a n adj GR _ q Hn HI H) as (g1 & mcs & m1 & cur & fin & -> & G & Z & SS).
  destruct (drain_ready a n adj GR g1 mcs (good_ready a n g1 mcs G) m1 cur fin lr k) as (l & (g' & en' & DR & KE & SC & ZF) & ND & S & K0 & K1 & K2).
  exists (mkP (Some g') n m1 cur fin), en', l. split; auto. split; [|split; auto; split; auto; split; auto; split; auto].
  - exists g'. split; auto. rewrite (kept_start a n g1 g' KE), SS, SC. split; auto.
  - intros L d I F. apply (proj1 (K2 L) d I). apply (missed_iff a n adj GR); auto. apply S; auto.
Qed.

Lemma enumerate_unhurried p n adj q lr k : made p n adj -> has_edge adj -> storage_live p -> unhurried n adj p q -> 2 <= k ->
  exists q' en l, (forall fuel, length l < fuel -> drain fuel lr q (new_enum k) = Ok (q', en, l)) /\ NoDup l
    /\ forall d, In d l <-> clique n adj d /\ length d = k /\ ~ first_at_1 adj d.
Proof.
  intros M HE LV H L. destruct (made_hinv p n adj M HE LV) as (a & cap & m & g & GR & B & -> & _ & G & Z & W & S1 & _).
  assert (U0 : uinv a n (mkP (Some g) n m 0 false)).
  { exists g, (bound a), m, 0, false. do 4 (split; auto). apply bound_svalid. }
  destruct (unhurried_uinv a n adj GR HE _ _ U0 H) as (g1 & mcs & m1 & cur & fin & -> & G1 & Z1 & W1 & V1).
  destruct (drain_ready a n adj GR g1 mcs (good_ready a n g1 mcs G1) m1 cur fin lr k) as (l & (g' & en' & DR & KE & SC & ZF) & ND & S & K0 & K1 & K2).
  exists (mkP (Some g') n m1 cur fin), en', l. split; auto. split; auto. destruct (K2 L) as [K3 K4]. intros d. split.
  - intros I. destruct (S d I) as [C1 C2]. split; auto. split; auto. intros F. apply (K3 d I). apply (missed_iff a n adj GR); auto.
  - intros (C1 & C2 & C3). apply K4; auto. intros F. apply C3. apply (missed_iff a n adj GR); auto.
Qed.

(** Freshly loaded graphs, with or without edges. *)
Lemma fresh_ready a n adj cap g : gra a n adj -> built a (n + 1) cap g -> bits_live g = true -> ready a n g (bound a).
Proof.
  intros GR B LV. pose proof (gra_ctx a n adj GR) as HC.
  assert (ST : forall k, k < n + 1 -> exists s, stores a g k s).
  { intros k Hk. destruct (sp_spec a (n + 1) (gc_sorted _ _ HC) (gc_self _ _ HC) k Hk) as [S1 S2]. exists (card (rlen a k) (fun x => x =? sp a k)), (fun x => x =? sp a k). split; [apply (b_rep _ _ _ _ B k Hk)|].
    split; [|split; auto].
    - split; [apply Nat.eqb_refl|]. intros p Hp E. apply Nat.eqb_eq in E. auto.
    - intros p q Hp Hq E1 E2 N. apply Nat.eqb_eq in E1, E2. congruence. }
  split; auto.
  - split; [apply (b_el _ _ _ _ B)|apply (b_vs _ _ _ _ B)|apply (b_nv _ _ _ _ B)|exact LV|apply (b_mem _ _ _ _ B)].
  - rewrite (b_cur _ _ _ _ B). lia.
  - intros v Hv L. pose proof (b_deg _ _ _ _ B v Hv) as L1. split; auto. pose proof (b_lim _ _ _ _ B v Hv) as L2.
    assert (L3 : 2 <= rlen a v).
    { rewrite bound_card in L. pose proof (card_bound (rlen a v) (candp a v)).
      destruct (Nat.eq_dec (rlen a v) 1) as [E1|]; [|lia]. exfalso. 
      destruct (sp_spec a (n + 1) (gc_sorted _ _ HC) (gc_self _ _ HC) v Hv) as [S1 S2].
      pose proof (candp_sp a (n + 1) (gc_sorted _ _ HC) (gc_self _ _ HC) v Hv) as CS.
      rewrite E1 in *. replace (sp a v) with 0 in CS by lia. rewrite card_S, CS, card_0 in L. lia. }
    pose proof (b_space _ _ _ _ B (ex_intro _ v (conj Hv L3))) as SP. rewrite (b_cur _ _ _ _ B), <- (b_start _ _ _ _ B).
    assert ((bound a v + 1) * words (rlen a v) <= (CLIQUE_LIMIT g + 1) * words (max_degree g)) by (apply Nat.mul_le_mono; [lia|apply words_mono; auto]).
    lia.
  - intros i Hi. apply (b_zero _ _ _ _ B). rewrite (b_cur _ _ _ _ B) in Hi. lia.
Qed.

Lemma enumerate_fresh p n adj lr k : made p n adj -> storage_live p ->
  exists q' en l, (forall fuel, length l < fuel -> drain fuel lr p (new_enum k) = Ok (q', en, l)) /\ released q' /\ NoDup l
    /\ (forall d, In d l -> clique n adj d /\ length d = k)
    /\ (k = 0 -> l = []) /\ (k = 1 -> l = map (fun v => [v]) (seq 1 n))
    /\ (2 <= k -> forall d, In d l <-> clique n adj d /\ length d = k /\ ~ first_at_1 adj d).
Proof.
  intros M (g & EG & LV). destruct (made_fresh p n adj M) as (a & cap & m & g0 & -> & GR & B). cbn [p_G] in EG. injection EG as ->.
  destruct (drain_ready a n adj GR g (bound a) (fresh_ready a n adj cap g GR B LV) m 0 false lr k) as (l & (g' & en' & DR & KE & SC & ZF) & ND & S & K0 & K1 & K2).
  exists (mkP (Some g') n m 0 false), en', l. split; auto. split; [|split; auto; split; auto; split; auto; split; auto].
  - exists g'. split; auto. rewrite (kept_start a n g g' KE), SC, (b_start _ _ _ _ B), (b_cur _ _ _ _ B). split; auto. intros i Hi. apply ZF.
    rewrite (b_cur _ _ _ _ B). lia.
  - intros L d. destruct (K2 L) as [K3 K4]. split.
    + intros I. destruct (S d I) as [C1 C2]. split; auto. split; auto. intros F. apply (K3 d I). apply (missed_iff a n adj GR); auto.
    + intros (C1 & C2 & C3). apply K4; auto; [apply (bound_svalid a n adj GR) || apply bound_svalid|]. intros F. apply C3. apply (missed_iff a n adj GR); auto.
Qed.

(** ** C12: a graph without edges *)
Lemma edgeless_search p n adj e lb ub heur dfs cont : made p n adj -> 1 <= n -> (forall u v, ~ adj u v) -> heur = true \/ dfs = true ->
  get_max_clique e p lb ub heur dfs cont = UB OobRead.
Proof.
  intros M Hn NE HD. destruct (made_fresh p n adj M) as (a & cap & m & g & -> & GR & B).
  assert (LEN : forall k, k < n + 1 -> rlen a k = 1).
  { intros k Hk. assert (E : row a k = [k]); [|rewrite E; auto].
    apply sorted_ext; [apply row_sorted, (gr_sorted _ _ _ GR)|repeat constructor|].
    intros x. rewrite row_in, (gr_in _ _ _ GR). simpl. split.
    - intros (_ & _ & [E|A]); auto. exfalso. eapply NE; eauto.
    - intros [<-|[]]. repeat split; auto; lia. }
  destruct (b_edgeless _ _ _ _ B ltac:(lia) LEN) as (L1 & _).
  assert (LM : forall g' k, edge_bits g' = edge_bits g -> search_cur g' = search_cur g -> load_memory g' k = UB OobRead).
  { intros g' k E1 E2. unfold load_memory. rewrite E1, E2, (b_cur _ _ _ _ B), L1. destruct (Nat.ltb_spec (1 + eb a (n + 1)) (eb a (n + 1))); [lia|auto]. }
  destruct (b_loc _ _ _ _ B ltac:(lia)) as [GL _].
  rewrite get_unfold by auto. set (g0 := prepared g lb ub). unfold find_max_cliques.
  replace (if cont && negb (0 =? 0) then false else heur) with heur by (destruct cont; auto).
  assert (RV : exists v, rd (vertices g0) (CUR_MAX_LOC g0) = Ok v).
  { change (vertices g0) with (vertices g). change (CUR_MAX_LOC g0) with (CUR_MAX_LOC g). rewrite (b_vs _ _ _ _ B).
    destruct (nth_error (map (fun k => mkvert a (bound a k) k) (seq 0 (n + 1))) (CUR_MAX_LOC g)) as [v|] eqn:EV.
    - exists v. apply rd_some. auto.
    - apply nth_error_None in EV. rewrite map_length, seq_length in EV. lia. }
  destruct RV as [v RV]. destruct heur.
  - unfold heur_process_graph. rewrite LM by auto. reflexivity.
  - destruct HD as [HD| ->]; [discriminate|]. cbn [bind]. destruct (clock e).
    + unfold rec_process_graph, rec_process_vertex. rewrite RV. cbn [bind]. rewrite LM by auto. reflexivity.
    + unfold sd_process_graph, sd_process_vertex. rewrite RV. cbn [bind]. unfold root_state. rewrite LM by auto. reflexivity.
Qed.
