(** LexFacts: sets of positions in lexicographic order, and the order in which the candidates on a stack of search states are
    taken. *)
From Verif Require Import Base MBits MUtils MGraph SpecBits BaseFacts BitsFacts SetFacts SortFacts RowFacts ConstructFacts CardFacts SearchBase FrameFacts FrameInv.
Local Open Scope nat_scope.
Local Arguments Nat.sub : simpl never.
Local Arguments Nat.mul : simpl never.

Lemma card_same n P Q : (forall i, i < n -> P i = true -> Q i = true) -> card n P = card n Q -> forall i, i < n -> P i = Q i.
Proof.
  intros H E i Hi. destruct (P i) eqn:EP; [symmetry; auto|]. destruct (Q i) eqn:EQ; auto. exfalso.
  pose proof (card_split n Q P) as CS.
  assert (card n (fun x => Q x && P x) = card n P) as C1.
  { apply card_ext. intros x Hx. destruct (P x) eqn:EPx; [rewrite (H x Hx EPx)|rewrite andb_false_r]; auto. }
  assert (0 < card n (fun x => Q x && negb (P x))); [|lia]. apply card_pos. exists i. rewrite EP, EQ. auto.
Qed.

Section Lex.
  Variables (a : pairs) (cur : nat).
  Notation N := (rlen a cur).
  Notation A := (padj a cur).

  (** The clique K extends the path of some frame by candidates of that frame. *)
  Fixpoint ecovered (fs : list frame) (K : nat -> bool) : Prop :=
    match fs with
    | [] => False
    | (id, X) :: fs' =>
        ((forall x, In x (id :: ids fs') -> K x = true) /\ (forall x, x < N -> K x = true -> In x (id :: ids fs') \/ X x = true))
        \/ ecovered fs' K
    end.

  (** Candidates are taken in increasing order, and the candidates of a frame are among those of the frame below. *)
  Fixpoint fdisj (fs : list frame) : Prop :=
    match fs with
    | (id, X) :: fs' =>
        match fs' with
        | (id', X') :: fs'' => (forall x, x < N -> X' x = true -> id < x) /\ (forall x, x < N -> X x = true -> X' x = true) /\ (fs'' <> [] -> id' < id)
        | [] => True
        end /\ fdisj fs'
    | [] => True
    end.

  (** The first difference is a position of the first set. *)
  Definition lexlt (K K' : nat -> bool) : Prop :=
    exists x, x < N /\ K x = true /\ K' x = false /\ forall y, y < x -> K y = K' y.

  Lemma after_below fs : (forall x, In x (ids fs) -> x < N) -> NoDup (ids fs) -> fdisj fs ->
    forall K0 K, (forall x, In x (ids fs) -> K0 x = true) -> (tl fs <> [] -> forall x, x < N -> K0 x = true -> In x (ids fs) \/ hd 0 (ids fs) < x) ->
    ecovered (tl fs) K -> lexlt K0 K.
  Proof.
    induction fs as [|[id X] fs IH]; intros RN ND FD K0 K HK HH; [intros []|]. cbn [tl] in *.
    destruct fs as [|[id' X'] fs]; [intros []|]. cbn [ids map fst hd] in *. inversion ND as [|? ? N1 N2]; subst.
    specialize (HH ltac:(discriminate)). destruct FD as [(FD1 & FD2 & FD3) FD4]. pose proof (RN id (or_introl eq_refl)) as Rid. intros [(C1 & C2)|C].
    - exists id. split; [exact Rid|]. split; [apply HK; left; reflexivity|]. split.
      + destruct (K id) eqn:E; auto. destruct (C2 id Rid E) as [I|E']; [destruct (N1 I)|]. pose proof (FD1 id Rid E'). lia.
      + intros y Hy. destruct (K0 y) eqn:E0, (K y) eqn:E; auto.
        * destruct (HH y ltac:(lia) E0) as [[->|I]|]; [lia| |lia]. rewrite C1 in E by exact I. discriminate.
        * destruct (C2 y ltac:(lia) E) as [I|E']; [rewrite HK in E0; [discriminate|right; exact I]|]. pose proof (FD1 y ltac:(lia) E'). lia.
    - apply (IH (fun x I => RN x (or_intror I)) N2 FD4 K0 K (fun x I => HK x (or_intror I))); auto. intros NE x Hx E.
      specialize (FD3 NE). destruct (HH x Hx E) as [[->|I]|]; [right; auto|left; auto|right; lia].
  Qed.

  Lemma fdisj_less id S S' fs : (forall x, x < N -> S' x = true -> S x = true) -> fdisj ((id, S) :: fs) -> fdisj ((id, S') :: fs).
  Proof. destruct fs as [|[id' X'] fs]; auto. intros H [(F1 & F2 & F3) F4]. split; auto. Qed.

  Lemma fdisj_push j X id S S' fs : fdisj ((id, S) :: fs) -> j < N -> S j = true -> (forall x, x < N -> S' x = true -> S x = true /\ j < x) ->
    (forall x, x < N -> X x = true -> S' x = true) -> fdisj ((j, X) :: (id, S') :: fs).
  Proof.
    intros FD Hj Sj H1 H2. split; [|apply (fdisj_less id S); auto; intros x Hx E; apply H1; auto]. split; [intros x Hx E; apply H1; auto|]. split; auto.
    intros NE. destruct fs as [|[id' X'] fs]; [congruence|]. destruct FD as [(F1 & F2 & _) _]. auto.
  Qed.

  (** The root is at the bottom, and the candidates of a frame come after its path. *)
  Fixpoint bottom (fs : list frame) : Prop :=
    match fs with
    | [] => True
    | (id, X) :: fs' => X (sp a cur) = false /\ match fs' with [] => id = sp a cur | _ => bottom fs' end
    end.

  Lemma fdisj_above fs : bottom fs -> fdisj fs -> match fs with
    | (id, X) :: fs' => forall x, x < N -> X x = true -> forall p, In p (id :: ids fs') -> p = sp a cur \/ p < x
    | [] => True end.
  Proof.
    induction fs as [|[id X] fs IH]; auto. destruct fs as [|[id' X'] fs].
    - intros [_ B] _ x Hx E p [<-|[]]. left. exact B.
    - intros [_ B] [(F1 & F2 & F3) F4] x Hx E p [<-|I]; [right; auto|]. apply (IH B F4 x Hx (F2 x Hx E) p I).
  Qed.

  (** The same set, or one that comes later. *)
  Definition first_or (K K' : nat -> bool) : Prop := (forall x, x < N -> K x = K' x) \/ lexlt K K'.

  (** The last position but the root. *)
  Definition tops (K : nat -> bool) (x : nat) : Prop :=
    x < N /\ K x = true /\ x <> sp a cur /\ forall y, y < N -> K y = true -> y <> sp a cur -> y <= x.

  (** First by all but the last position, then the greater last position. *)
  Definition lastlt (K K' : nat -> bool) : Prop :=
    exists x x', tops K x /\ tops K' x' /\ (lexlt (minus K x) (minus K' x') \/ (forall y, y < N -> minus K x y = minus K' x' y) /\ x' < x).
  Definition last_or (K K' : nat -> bool) : Prop := (forall x, x < N -> K x = K' x) \/ lastlt K K'.

  Lemma tops_exists K : 2 <= card N K -> exists x, tops K x.
  Proof.
    intros H. assert (G : forall m, m <= N -> (exists x, x < m /\ K x = true /\ x <> sp a cur) ->
      exists x, x < m /\ K x = true /\ x <> sp a cur /\ forall y, y < m -> K y = true -> y <> sp a cur -> y <= x).
    { induction m as [|m IH]; intros Hm (x & Hx & Kx & Nx); [lia|].
      destruct (K m) eqn:Km; [destruct (Nat.eq_dec m (sp a cur)) as [E|NE]|].
      2: { exists m. split; [lia|]. split; auto. split; auto. intros; lia. }
      all: destruct IH as (z & Z1 & Z2 & Z3 & Z4);
        [lia|exists x; split; [destruct (Nat.eq_dec x m) as [->|]; [congruence|lia]|auto]|];
        exists z; split; [lia|]; split; auto; split; auto; intros y Hy Ky Ny; apply Z4; auto;
        (destruct (Nat.eq_dec y m) as [->|]; [congruence|lia]). }
    destruct (G N (le_n _)) as (x & X1 & X2 & X3 & X4); [|exists x; split; auto].
    pose proof (card_single N (sp a cur)) as CS. pose proof (card_split N K (fun x => x =? sp a cur)) as SP.
    assert (card N (fun x => K x && (x =? sp a cur)) <= card N (fun x => x =? sp a cur)) as L1.
    { apply card_le. intros i Hi E. apply andb_prop in E. tauto. }
    assert (0 < card N (fun x => K x && negb (x =? sp a cur))) as P by (destruct (sp a cur <? N); lia).
    apply card_pos in P. destruct P as (x & Hx & E). apply andb_prop in E. destruct E as [E1 E2].
    exists x. split; auto. split; auto. destruct (Nat.eqb_spec x (sp a cur)); [discriminate|auto].
  Qed.
End Lex.
