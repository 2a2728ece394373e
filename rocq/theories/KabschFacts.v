(** KabschFacts: the rotation and translation of MKabsch. *)
From Verif Require Import Base MGen MKabsch SpecKabsch.
From Coq Require Import Field.
Local Open Scope nat_scope.

Section Facts.
  Variable F : ofield.
  Add Field FF : (f_field F).
  Notation "0" := (f0 F).
  Notation "1" := (f1 F).
  Infix "+" := (fadd F).
  Infix "*" := (fmul F).
  Infix "-" := (fsub F).
  Infix "/" := (fdiv F).
  Notation "- x" := (fopp F x).
  Infix "<=" := (fle F).

  (** *** Order *)

  Lemma le_refl : forall x : F, x <= x.
  Proof. intros x. destruct (f_total F x x); assumption. Qed.

  Lemma le_sub : forall x y : F, 0 <= y - x -> x <= y.
  Proof. intros x y H. apply (f_add F _ _ x) in H. replace (0 + x) with x in H by ring. replace (y - x + x) with y in H by ring. exact H. Qed.

  Lemma sub_le : forall x y : F, x <= y -> 0 <= y - x.
  Proof. intros x y H. apply (f_add F _ _ (- x)) in H. replace (x + - x) with 0 in H by ring. replace (y + - x) with (y - x) in H by ring. exact H. Qed.

  Lemma add_nonneg : forall x y : F, 0 <= x -> 0 <= y -> 0 <= x + y.
  Proof. intros x y Hx Hy. apply (f_trans F _ y); [exact Hy|]. apply le_sub. replace (x + y - y) with x by ring. exact Hx. Qed.

  Lemma opp_nonneg : forall x : F, x <= 0 -> 0 <= - x.
  Proof. intros x H. apply sub_le in H. replace (0 - x) with (- x) in H by ring. exact H. Qed.

  Lemma square_nonneg : forall x : F, 0 <= x * x.
  Proof.
    intros x. destruct (f_total F 0 x) as [H|H]; [apply f_mul; exact H|].
    apply opp_nonneg in H. replace (x * x) with (- x * - x) by ring. apply f_mul; exact H.
  Qed.

  Lemma one_nonneg : 0 <= 1.
  Proof. replace 1 with (1 * 1) by ring. apply square_nonneg. Qed.

  Lemma one_zero : 1 <> 0.
  Proof. apply (F_1_neq_0 (f_field F)). Qed.

  Lemma integral : forall x y : F, x * y = 0 -> x = 0 \/ y = 0.
  Proof.
    intros x y H. destruct (fleb F x 0) eqn:E1; [destruct (fleb F 0 x) eqn:E2|].
    - left. apply f_anti; apply f_leb; assumption.
    - right. assert (Hx : x <> 0) by (intros ->; rewrite E1 in E2; discriminate E2).
      replace y with (x * y / x) by (field; exact Hx). rewrite H. field. exact Hx.
    - right. assert (Hx : x <> 0) by (intros ->; assert (fleb F 0 0 = true) by (apply f_leb, le_refl); congruence).
      replace y with (x * y / x) by (field; exact Hx). rewrite H. field. exact Hx.
  Qed.

  Lemma sum_zero : forall x y : F, 0 <= x -> 0 <= y -> x + y = 0 -> x = 0 /\ y = 0.
  Proof.
    intros x y Hx Hy H. assert (Ex : x = 0).
    { apply f_anti; [|exact Hx]. apply le_sub. replace (0 - x) with (x + y - x) by (rewrite H; ring).
      replace (x + y - x) with y by ring. exact Hy. }
    split; [exact Ex|]. rewrite Ex in H. replace y with (0 + y) by ring. exact H.
  Qed.

  Lemma square_zero : forall x : F, x * x = 0 -> x = 0.
  Proof. intros x H. destruct (integral x x H); assumption. Qed.

  Lemma square_le_one : forall x y : F, x * x + y * y = 1 -> x <= 1.
  Proof.
    intros x y H. destruct (f_total F x 1) as [Hx|Hx]; [exact Hx|].
    apply le_sub. pose proof (sub_le _ _ Hx) as H1.
    assert (0 <= 1 + x) as H2 by (apply add_nonneg; [apply one_nonneg|apply (f_trans F _ 1); [apply one_nonneg|exact Hx]]).
    assert (H3 : (x - 1) * (1 + x) = - (y * y)). { replace (y * y) with (1 - x * x) by (rewrite <- H; ring). ring. }
    assert (H4 : (x - 1) * (1 + x) = 0).
    { apply f_anti; [|apply f_mul; assumption]. rewrite H3. apply le_sub. replace (0 - - (y * y)) with (y * y) by ring. apply square_nonneg. }
    destruct (integral _ _ H4) as [E|E].
    - replace (1 - x) with (- (x - 1)) by ring. rewrite E. replace (- 0) with 0 by ring. apply le_refl.
    - (* 1 + x = 0 with 1 <= x *)
      destruct (sum_zero 1 x one_nonneg (f_trans F _ _ _ one_nonneg Hx) E) as [E1 _]. destruct (one_zero E1).
  Qed.

  Lemma fnat_nonneg : forall n, 0 <= fnat F n.
  Proof. induction n as [|n IH]; cbn [fnat]; [apply le_refl|]. apply add_nonneg; [exact IH|apply one_nonneg]. Qed.

  Lemma fnat_pos : forall n, fnat F (S n) <> 0.
  Proof. intros n H. cbn [fnat] in H. destruct (sum_zero _ _ (fnat_nonneg n) one_nonneg H) as [_ E]. exact (one_zero E). Qed.

  (** *** Orthogonal matrices *)

  Lemma orthogonal_cols : forall A : mat F, orthogonal F A ->
    m00 A * m00 A + m10 A * m10 A = 1 /\ m01 A * m01 A + m11 A * m11 A = 1 /\ m00 A * m01 A + m10 A * m11 A = 0
    /\ mdet F A * mdet F A = 1.
  Proof.
    intros [a b c d] [H1 [H2 H3]]. cbn [m00 m01 m10 m11 mdet] in *. unfold mdet. cbn [m00 m01 m10 m11].
    assert (HD : (a * d - b * c) * (a * d - b * c) = 1).
    { replace ((a * d - b * c) * (a * d - b * c)) with ((a * a + b * b) * (c * c + d * d) - (a * c + b * d) * (a * c + b * d)) by ring.
      rewrite H1, H2, H3. ring. }
    (* a = D d, b = - D c *)
    assert (Ha : a = (a * d - b * c) * d).
    { replace ((a * d - b * c) * d) with (a * (c * c + d * d) - c * (a * c + b * d)) by ring. rewrite H2, H3. ring. }
    assert (Hb : b = - ((a * d - b * c) * c)).
    { replace (- ((a * d - b * c) * c)) with (b * (c * c + d * d) - d * (a * c + b * d)) by ring. rewrite H2, H3. ring. }
    set (D := a * d - b * c) in *. repeat split; [| | |exact HD].
    - rewrite Ha. replace (D * d * (D * d) + c * c) with (D * D * (d * d) + c * c) by ring. rewrite HD. etransitivity; [|exact H2]; ring.
    - rewrite Hb. replace (- (D * c) * - (D * c) + d * d) with (D * D * (c * c) + d * d) by ring. rewrite HD. etransitivity; [|exact H2]; ring.
    - rewrite Ha, Hb. replace (D * d * - (D * c) + c * d) with (c * d - D * D * (c * d)) by ring. rewrite HD. ring.
  Qed.

  Lemma unit_cases : forall x : F, x * x = 1 -> x = 1 \/ x = - (1).
  Proof.
    intros x H. assert (H1 : (x - 1) * (x + 1) = 0) by (replace ((x - 1) * (x + 1)) with (x * x - 1) by ring; rewrite H; ring).
    destruct (integral _ _ H1) as [E|E].
    - left. replace x with (x - 1 + 1) by ring. rewrite E. ring.
    - right. replace x with (x + 1 - 1) by ring. rewrite E. ring.
  Qed.

  Lemma det_mul : forall A B : mat F, mdet F (mmul F A B) = mdet F A * mdet F B.
  Proof. intros [a b c d] [e f g h]. unfold mdet, mmul. cbn [m00 m01 m10 m11]. ring. Qed.

  Lemma det_tr : forall A : mat F, mdet F (mtr F A) = mdet F A.
  Proof. intros [a b c d]. unfold mdet, mtr. cbn [m00 m01 m10 m11]. ring. Qed.

  Lemma orthogonal_mul : forall A B : mat F, orthogonal F A -> orthogonal F B -> orthogonal F (mmul F A B).
  Proof.
    intros [a b c d] [e f g h] [H1 [H2 H3]] [K1 [K2 K3]]. cbn [m00 m01 m10 m11] in *.
    unfold orthogonal, mmul. cbn [m00 m01 m10 m11]. repeat split.
    - replace ((a * e + b * g) * (a * e + b * g) + (a * f + b * h) * (a * f + b * h))
        with (a * a * (e * e + f * f) + b * b * (g * g + h * h) + (1 + 1) * (a * b) * (e * g + f * h)) by ring.
      rewrite K1, K2, K3. etransitivity; [|exact H1]; ring.
    - replace ((c * e + d * g) * (c * e + d * g) + (c * f + d * h) * (c * f + d * h))
        with (c * c * (e * e + f * f) + d * d * (g * g + h * h) + (1 + 1) * (c * d) * (e * g + f * h)) by ring.
      rewrite K1, K2, K3. etransitivity; [|exact H2]; ring.
    - replace ((a * e + b * g) * (c * e + d * g) + (a * f + b * h) * (c * f + d * h))
        with (a * c * (e * e + f * f) + b * d * (g * g + h * h) + (a * d + b * c) * (e * g + f * h)) by ring.
      rewrite K1, K2, K3. etransitivity; [|exact H3]; ring.
  Qed.

  Lemma orthogonal_tr : forall A : mat F, orthogonal F A -> orthogonal F (mtr F A).
  Proof. intros A H. destruct (orthogonal_cols A H) as [H1 [H2 [H3 _]]]. unfold orthogonal, mtr. cbn [m00 m01 m10 m11]. auto. Qed.

  (** The sign chosen by line 132 *)
  Definition sg (d : F) : F := if fleb F d 0 then - (1) else 1.

  Lemma sg_unit : forall d, d * d = 1 -> sg d = d.
  Proof.
    intros d H. unfold sg. destruct (unit_cases d H) as [-> | ->].
    - destruct (fleb F 1 0) eqn:E; [|reflexivity]. apply f_leb in E. destruct (one_zero (f_anti F _ _ E one_nonneg)).
    - destruct (fleb F (- (1)) 0) eqn:E; [reflexivity|].
      assert (H2 : fleb F (- (1)) 0 = true) by (apply f_leb, le_sub; replace (0 - - (1)) with 1 by ring; apply one_nonneg). congruence.
  Qed.

  Lemma sg_orthogonal : forall d, d * d = 1 -> orthogonal F (mkMat 1 0 0 (sg d)).
  Proof. intros d H. rewrite (sg_unit d H). unfold orthogonal. cbn [m00 m01 m10 m11]. repeat split; [ring| |ring]. etransitivity; [|exact H]; ring. Qed.

  Definition rotmat (u vh : mat F) : mat F := mmul F (mmul F u (mkMat 1 0 0 (sg (mdet F (mmul F u (mtr F vh)))))) (mtr F vh).

  Lemma det_uvh : forall u vh, orthogonal F u -> orthogonal F vh ->
    mdet F (mmul F u (mtr F vh)) * mdet F (mmul F u (mtr F vh)) = 1.
  Proof.
    intros u vh Hu Hv. rewrite det_mul, det_tr. destruct (orthogonal_cols u Hu) as [_ [_ [_ H1]]]. destruct (orthogonal_cols vh Hv) as [_ [_ [_ H2]]].
    replace (mdet F u * mdet F vh * (mdet F u * mdet F vh)) with (mdet F u * mdet F u * (mdet F vh * mdet F vh)) by ring.
    rewrite H1, H2. ring.
  Qed.

  Lemma rotmat_rotation : forall u vh, orthogonal F u -> orthogonal F vh -> rotation F (rotmat u vh).
  Proof.
    intros u vh Hu Hv. pose proof (det_uvh u vh Hu Hv) as Hd. split.
    - unfold rotmat. apply orthogonal_mul; [apply orthogonal_mul|]; [exact Hu|apply sg_orthogonal, Hd|apply orthogonal_tr, Hv].
    - change (mdet F (rotmat u vh) = 1). unfold rotmat. rewrite (sg_unit _ Hd). rewrite det_mul, det_tr in Hd. rewrite !det_mul, !det_tr.
      unfold mdet at 2. cbn [m00 m01 m10 m11].
      replace (mdet F u * (1 * (mdet F u * mdet F vh) - 0 * 0) * mdet F vh) with (mdet F u * mdet F vh * (mdet F u * mdet F vh)) by ring. exact Hd.
  Qed.

  Lemma kabsch_rotmat : forall svd A B u s vh, svd (correlation F (centred F A) (centred F B)) = (u, s, vh) ->
    fst (kabsch F svd A B) = rotmat u vh.
  Proof. intros svd A B u s vh E. unfold kabsch. rewrite E. reflexivity. Qed.

  (** *** Sums *)

  Definition mom (f : vec F -> vec F -> F) (A B : list (vec F)) : F := total F (map (fun ab => f (fst ab) (snd ab)) (combine A B)).

  Lemma mom_cons : forall f a b A B, mom f (a :: A) (b :: B) = f a b + mom f A B.
  Proof. reflexivity. Qed.

  (** The misfit of R, t by moments *)
  Definition misfit_poly (n sx sy sx' sy' xx xy yy xx' xy' yx' yy' x'x' y'y' r00 r01 r10 r11 t0 t1 : F) : F :=
    xx * (r00 * r00 + r01 * r01) + yy * (r10 * r10 + r11 * r11) + (1 + 1) * xy * (r00 * r10 + r01 * r11)
    + x'x' + y'y' - (1 + 1) * (xx' * r00 + xy' * r01 + yx' * r10 + yy' * r11)
    + n * (t0 * t0 + t1 * t1)
    + (1 + 1) * (t0 * (sx * r00 + sy * r10 - sx') + t1 * (sx * r01 + sy * r11 - sy')).

  Lemma misfit_moments : forall R t A B, length A = length B ->
    misfit F R t A B =
    misfit_poly (fnat F (length A)) (total F (map fst A)) (total F (map snd A)) (total F (map fst B)) (total F (map snd B))
      (mom (fun a _ => fst a * fst a) A B) (mom (fun a _ => fst a * snd a) A B) (mom (fun a _ => snd a * snd a) A B)
      (mom (fun a b => fst a * fst b) A B) (mom (fun a b => fst a * snd b) A B)
      (mom (fun a b => snd a * fst b) A B) (mom (fun a b => snd a * snd b) A B)
      (mom (fun _ b => fst b * fst b) A B) (mom (fun _ b => snd b * snd b) A B)
      (m00 R) (m01 R) (m10 R) (m11 R) (fst t) (snd t).
  Proof.
    intros R t A. induction A as [|a A IH]; intros [|b B] HL; try discriminate HL.
    - unfold misfit_poly, mom, total. cbn [misfit length fnat map fold_right combine]. ring.
    - cbn [misfit]. rewrite (IH B) by (injection HL as HL; exact HL). rewrite !mom_cons.
      cbn [length fnat map]. unfold total. cbn [fold_right]. fold (total F (map fst A)). fold (total F (map snd A)).
      fold (total F (map fst B)). fold (total F (map snd B)). unfold misfit_poly, moved. cbn [fst snd]. ring.
  Qed.

  (** Correlation of shifted points by moments *)
  Lemma mom_shift : forall (p q : F) (f g : vec F -> F) A B,  length A = length B ->
    mom (fun a b => (f a - p) * (g b - q)) A B =
    mom (fun a b => f a * g b) A B - p * total F (map g B) - q * total F (map f A) + fnat F (length A) * p * q.
  Proof.
    intros p q f g A. induction A as [|a A IH]; intros [|b B] HL; try discriminate HL.
    - unfold mom, total. cbn [length fnat map fold_right combine]. ring.
    - rewrite !mom_cons, (IH B) by (injection HL as HL; exact HL). cbn [length fnat map]. unfold total. cbn [fold_right].
      fold (total F (map f A)). fold (total F (map g B)). ring.
  Qed.

  Lemma mom_map : forall f (g h : vec F -> vec F) A B, mom f (map g A) (map h B) = mom (fun a b => f (g a) (h b)) A B.
  Proof.
    intros f g h A. induction A as [|a A IH]; intros [|b B]; try reflexivity. cbn [map]. rewrite !mom_cons, IH. reflexivity.
  Qed.

  Lemma scale : forall n m p q : F, n <> 0 -> n * (m - p / n * q - q / n * p + n * (p / n) * (q / n)) = n * m - p * q.
  Proof. intros n m p q H. field. exact H. Qed.

  Lemma correlation_moments : forall A B, length A = length B -> A <> [] ->
    let n := fnat F (length A) in
    let X := correlation F (centred F A) (centred F B) in
    n * m00 X = n * mom (fun a b => fst a * fst b) A B - total F (map fst A) * total F (map fst B)
    /\ n * m01 X = n * mom (fun a b => fst a * snd b) A B - total F (map fst A) * total F (map snd B)
    /\ n * m10 X = n * mom (fun a b => snd a * fst b) A B - total F (map snd A) * total F (map fst B)
    /\ n * m11 X = n * mom (fun a b => snd a * snd b) A B - total F (map snd A) * total F (map snd B).
  Proof.
    intros A B HL HA n X. assert (Hn : n <> 0) by (subst n; destruct A as [|a A]; [destruct (HA eq_refl)|apply fnat_pos]).
    assert (E00 : m00 X = mom (fun a b => (fst a - fst (mean F A)) * (fst b - fst (mean F B))) A B) by (subst X; unfold centred; apply mom_map).
    assert (E01 : m01 X = mom (fun a b => (fst a - fst (mean F A)) * (snd b - snd (mean F B))) A B) by (subst X; unfold centred; apply mom_map).
    assert (E10 : m10 X = mom (fun a b => (snd a - snd (mean F A)) * (fst b - fst (mean F B))) A B) by (subst X; unfold centred; apply mom_map).
    assert (E11 : m11 X = mom (fun a b => (snd a - snd (mean F A)) * (snd b - snd (mean F B))) A B) by (subst X; unfold centred; apply mom_map).
    rewrite (mom_shift _ _ fst fst) in E00 by exact HL. rewrite (mom_shift _ _ fst snd) in E01 by exact HL.
    rewrite (mom_shift _ _ snd fst) in E10 by exact HL. rewrite (mom_shift _ _ snd snd) in E11 by exact HL.
    unfold mean in E00, E01, E10, E11. cbn [fst snd] in E00, E01, E10, E11. rewrite <- HL in E00, E01, E10, E11. fold n in E00, E01, E10, E11.
    rewrite E00, E01, E10, E11. repeat split; apply scale; exact Hn.
  Qed.

  (** How well R agrees with X *)
  Definition gain (R X : mat F) : F := m00 R * m00 X + m01 R * m01 X + m10 R * m10 X + m11 R * m11 X.

  (** n times the misfit of an orthogonal R: a constant, less the gain, plus the square of the error in the centroid *)
  Definition drift0 (R : mat F) (t : vec F) (A B : list (vec F)) : F :=
    total F (map fst A) * m00 R + total F (map snd A) * m10 R + fnat F (length A) * fst t - total F (map fst B).
  Definition drift1 (R : mat F) (t : vec F) (A B : list (vec F)) : F :=
    total F (map fst A) * m01 R + total F (map snd A) * m11 R + fnat F (length A) * snd t - total F (map snd B).
  Definition spread (A B : list (vec F)) : F :=
    let n := fnat F (length A) in
    n * (mom (fun a _ => fst a * fst a) A B + mom (fun a _ => snd a * snd a) A B + mom (fun _ b => fst b * fst b) A B + mom (fun _ b => snd b * snd b) A B)
    - (total F (map fst A) * total F (map fst A) + total F (map snd A) * total F (map snd A)
       + total F (map fst B) * total F (map fst B) + total F (map snd B) * total F (map snd B)).

  Lemma misfit_split : forall R t A B, length A = length B -> A <> [] -> orthogonal F R ->
    fnat F (length A) * misfit F R t A B =
    spread A B - (1 + 1) * (fnat F (length A) * gain R (correlation F (centred F A) (centred F B)))
    + (drift0 R t A B * drift0 R t A B + drift1 R t A B * drift1 R t A B).
  Proof.
    intros R t A B HL HA [H1 [H2 H3]]. rewrite misfit_moments by exact HL.
    destruct (correlation_moments A B HL HA) as [E00 [E01 [E10 E11]]]. unfold gain.
    set (X := correlation F (centred F A) (centred F B)) in *. set (n := fnat F (length A)) in *.
    replace (n * (m00 R * m00 X + m01 R * m01 X + m10 R * m10 X + m11 R * m11 X))
      with (m00 R * (n * m00 X) + m01 R * (n * m01 X) + m10 R * (n * m10 X) + m11 R * (n * m11 X)) by ring.
    rewrite E00, E01, E10, E11. unfold misfit_poly. rewrite H1, H2, H3. unfold spread, drift0, drift1. fold n.
    clear E00 E01 E10 E11. destruct R as [a b c d]. cbn [m00 m01 m10 m11] in *.
    set (sx := total F (map fst A)). set (sy := total F (map snd A)). set (sx' := total F (map fst B)). set (sy' := total F (map snd B)).
    (* sx^2 (a^2+b^2-1) + sy^2 (c^2+d^2-1) + 2 sx sy (ac+bd) *)
    assert (HZ : sx * sx * (a * a + b * b - 1) + sy * sy * (c * c + d * d - 1) + (1 + 1) * (sx * sy) * (a * c + b * d) = 0)
      by (rewrite H1, H2, H3; ring).
    match goal with |- ?l = ?r => replace r with (l + (sx * sx * (a * a + b * b - 1) + sy * sy * (c * c + d * d - 1) + (1 + 1) * (sx * sy) * (a * c + b * d))) by ring end.
    rewrite HZ. ring.
  Qed.

  (** *** Spec sums are the sums of the model *)

  Lemma over_count : forall A, over F (fun _ => 1) A = fnat F (length A).
  Proof. induction A as [|a A IH]; cbn [over fnat length]; [reflexivity|]. rewrite IH. ring. Qed.

  Lemma over_total : forall f A, over F f A = total F (map f A).
  Proof. intros f. induction A as [|a A IH]; cbn [over map]; [reflexivity|]. rewrite IH. reflexivity. Qed.

  Lemma over2_mom : forall f A B, over2 F f A B = mom f A B.
  Proof. intros f. induction A as [|a A IH]; intros [|b B]; try reflexivity. cbn [over2]. rewrite IH, mom_cons. reflexivity. Qed.

  Lemma mul_cancel : forall n x y : F, n <> 0 -> n * x = n * y -> x = y.
  Proof. intros n x y Hn H. replace x with (n * x / n) by (field; exact Hn). rewrite H. field. exact Hn. Qed.

  Lemma count_pos : forall A : list (vec F), A <> [] -> fnat F (length A) <> 0.
  Proof. intros [|a A] HA; [destruct (HA eq_refl)|apply fnat_pos]. Qed.

  Lemma covariance_correlation : forall A B X, length A = length B -> A <> [] -> covariance F A B X ->
    X = correlation F (centred F A) (centred F B).
  Proof.
    intros A B X HL HA [H00 [H01 [H10 H11]]]. unfold cov in H00, H01, H10, H11.
    rewrite over_count, !over_total, over2_mom in H00, H01, H10, H11.
    destruct (correlation_moments A B HL HA) as [E00 [E01 [E10 E11]]]. pose proof (count_pos A HA) as Hn.
    set (Y := correlation F (centred F A) (centred F B)) in *. destruct X as [a b c d]. destruct Y as [a' b' c' d']. cbn [m00 m01 m10 m11] in *.
    f_equal; apply (mul_cancel _ _ _ Hn);
      [rewrite H00; symmetry; exact E00|rewrite H01; symmetry; exact E01|rewrite H10; symmetry; exact E10|rewrite H11; symmetry; exact E11].
  Qed.

  Lemma mul_nonneg_inv : forall n x : F, 0 <= n -> n <> 0 -> 0 <= n * x -> 0 <= x.
  Proof.
    intros n x H0 Hn H. destruct (f_total F 0 x) as [Hx|Hx]; [exact Hx|].
    pose proof (f_mul F _ _ H0 (opp_nonneg _ Hx)) as H2. replace (n * - x) with (0 - n * x) in H2 by ring. apply le_sub in H2.
    pose proof (f_anti F _ _ H H2) as E. symmetry in E. destruct (integral _ _ E) as [E2|E2]; [destruct (Hn E2)|]. rewrite E2. apply le_refl.
  Qed.

  (** *** The translation *)

  Definition shift (R : mat F) (A B : list (vec F)) : vec F :=
    (- fst (vmul F (mean F A) R) + fst (mean F B), - snd (vmul F (mean F A) R) + snd (mean F B)).

  Lemma kabsch_parts : forall svd A B u s vh, svd (correlation F (centred F A) (centred F B)) = (u, s, vh) ->
    kabsch F svd A B = (rotmat u vh, shift (rotmat u vh) A B).
  Proof. intros svd A B u s vh E. unfold kabsch. rewrite E. reflexivity. Qed.

  Lemma shift_drift : forall R A B, length A = length B -> A <> [] ->
    drift0 R (shift R A B) A B = 0 /\ drift1 R (shift R A B) A B = 0.
  Proof.
    intros R A B HL HA. pose proof (count_pos A HA) as Hn. unfold drift0, drift1, shift, vmul, mean. cbn [fst snd]. rewrite <- HL.
    generalize dependent (fnat F (length A)). intros n Hn. split; field; exact Hn.
  Qed.

  Lemma misfit_shift : forall R A B, length A = length B -> A <> [] -> orthogonal F R ->
    fnat F (length A) * misfit F R (shift R A B) A B =
    spread A B - (1 + 1) * (fnat F (length A) * gain R (correlation F (centred F A) (centred F B))).
  Proof.
    intros R A B HL HA HR. rewrite misfit_split by assumption. destruct (shift_drift R A B HL HA) as [-> ->]. ring.
  Qed.

  Lemma misfit_above : forall R t A B, length A = length B -> A <> [] -> orthogonal F R ->
    spread A B - (1 + 1) * (fnat F (length A) * gain R (correlation F (centred F A) (centred F B))) <= fnat F (length A) * misfit F R t A B.
  Proof.
    intros R t A B HL HA HR. rewrite misfit_split by assumption. apply le_sub.
    match goal with |- 0 <= ?x => replace x with (drift0 R t A B * drift0 R t A B + drift1 R t A B * drift1 R t A B) by ring end.
    apply add_nonneg; apply square_nonneg.
  Qed.

  (** *** The gain of a rotation *)

  Definition dg (s : F * F) : mat F := mkMat (fst s) 0 0 (snd s).

  Lemma svd_mul : forall X u s vh, is_svd F X (u, s, vh) -> X = mmul F (mmul F u (dg s)) vh.
  Proof.
    intros [a b c d] u s vh [_ [_ [_ [_ [H1 [H2 [H3 H4]]]]]]]. cbn [m00 m01 m10 m11] in *. unfold mmul, dg. cbn [m00 m01 m10 m11].
    f_equal; [rewrite H1|rewrite H2|rewrite H3|rewrite H4]; ring.
  Qed.

  (** <R, u S vh> = <u' R vh', S> *)
  Lemma gain_conj : forall R u s vh,
    gain R (mmul F (mmul F u (dg s)) vh) =
    fst s * m00 (mmul F (mmul F (mtr F u) R) (mtr F vh)) + snd s * m11 (mmul F (mmul F (mtr F u) R) (mtr F vh)).
  Proof. intros [a b c d] [e f g h] [s1 s2] [i j k l]. unfold gain, mmul, mtr, dg. cbn [m00 m01 m10 m11 fst snd]. ring. Qed.

  Lemma orthogonal_diag : forall Z, orthogonal F Z -> m11 Z = mdet F Z * m00 Z.
  Proof.
    intros [a b c d] [H1 [H2 H3]]. unfold mdet. cbn [m00 m01 m10 m11] in *.
    replace ((a * d - b * c) * a) with (d * (a * a + b * b) - b * (a * c + b * d)) by ring. rewrite H1, H3. ring.
  Qed.

  Lemma gain_rotation : forall X u s vh R, is_svd F X (u, s, vh) -> rotation F R ->
    gain R X <= fst s + mdet F (mmul F u (mtr F vh)) * snd s.
  Proof.
    intros X u s vh R HX [HR HdR]. rewrite (svd_mul _ _ _ _ HX), gain_conj.
    destruct HX as [Hu [Hv [Hs2 [Hs1 _]]]]. pose proof (det_uvh u vh Hu Hv) as Hd.
    set (Z := mmul F (mmul F (mtr F u) R) (mtr F vh)).
    assert (HZ : orthogonal F Z) by (apply orthogonal_mul; [apply orthogonal_mul|]; [apply orthogonal_tr| |apply orthogonal_tr]; assumption).
    assert (HdZ : mdet F Z = mdet F (mmul F u (mtr F vh))).
    { unfold Z. rewrite !det_mul, !det_tr. change (mdet F R = 1) in HdR. rewrite HdR. ring. }
    rewrite (orthogonal_diag Z HZ), HdZ. set (d := mdet F (mmul F u (mtr F vh))) in *.
    destruct HZ as [HZ1 _]. pose proof (square_le_one _ _ HZ1) as Hc. apply le_sub.
    replace (fst s + d * snd s - (fst s * m00 Z + snd s * (d * m00 Z))) with ((1 - m00 Z) * (fst s + d * snd s)) by ring.
    apply f_mul; [apply sub_le, Hc|]. destruct (unit_cases d Hd) as [-> | ->].
    - replace (fst s + 1 * snd s) with (fst s + snd s) by ring. apply add_nonneg; [apply (f_trans F _ (snd s)); assumption|exact Hs2].
    - replace (fst s + - (1) * snd s) with (fst s - snd s) by ring. apply sub_le, Hs1.
  Qed.

  (** The matrix meant: u D vh, not u D vh' *)
  Definition meant (u vh : mat F) : mat F := mmul F (mmul F u (mkMat 1 0 0 (sg (mdet F (mmul F u (mtr F vh)))))) vh.

  Lemma meant_symmetric : forall u vh, is_symmetric F vh -> rotmat u vh = meant u vh.
  Proof. intros u [a b c d] H. unfold is_symmetric in H. cbn [m01 m10] in H. subst c. reflexivity. Qed.

  Lemma meant_rotation : forall u vh, orthogonal F u -> orthogonal F vh -> rotation F (meant u vh).
  Proof.
    intros u vh Hu Hv. pose proof (det_uvh u vh Hu Hv) as Hd. split.
    - unfold meant. apply orthogonal_mul; [apply orthogonal_mul|]; [exact Hu|apply sg_orthogonal, Hd|exact Hv].
    - change (mdet F (meant u vh) = 1). unfold meant. rewrite (sg_unit _ Hd). rewrite det_mul, det_tr in Hd. rewrite !det_mul, !det_tr.
      unfold mdet at 2. cbn [m00 m01 m10 m11].
      replace (mdet F u * (1 * (mdet F u * mdet F vh) - 0 * 0) * mdet F vh) with (mdet F u * mdet F vh * (mdet F u * mdet F vh)) by ring. exact Hd.
  Qed.

  Lemma mmul_assoc : forall A B C : mat F, mmul F (mmul F A B) C = mmul F A (mmul F B C).
  Proof. intros [a b c d] [e f g h] [i j k l]. unfold mmul. cbn [m00 m01 m10 m11]. f_equal; ring. Qed.

  Definition one : mat F := mkMat 1 0 0 1.

  Lemma mmul_one_l : forall A, mmul F one A = A.
  Proof. intros [a b c d]. unfold mmul, one. cbn [m00 m01 m10 m11]. f_equal; ring. Qed.
  Lemma mmul_one_r : forall A, mmul F A one = A.
  Proof. intros [a b c d]. unfold mmul, one. cbn [m00 m01 m10 m11]. f_equal; ring. Qed.

  Lemma tr_mul : forall A, orthogonal F A -> mmul F (mtr F A) A = one.
  Proof.
    intros A H. destruct (orthogonal_cols A H) as [H1 [H2 [H3 _]]]. destruct A as [a b c d]. unfold mmul, mtr, one. cbn [m00 m01 m10 m11] in *.
    f_equal; try assumption. etransitivity; [|exact H3]; ring.
  Qed.
  Lemma mul_tr : forall A, orthogonal F A -> mmul F A (mtr F A) = one.
  Proof.
    intros A [H1 [H2 H3]]. destruct A as [a b c d]. unfold mmul, mtr, one. cbn [m00 m01 m10 m11] in *.
    f_equal; try assumption. etransitivity; [|exact H3]; ring.
  Qed.

  Lemma gain_meant : forall X u s vh, is_svd F X (u, s, vh) -> gain (meant u vh) X = fst s + mdet F (mmul F u (mtr F vh)) * snd s.
  Proof.
    intros X u s vh HX. rewrite (svd_mul _ _ _ _ HX), gain_conj. destruct HX as [Hu [Hv _]].
    unfold meant. set (D := mkMat 1 0 0 _).
    replace (mmul F (mmul F (mtr F u) (mmul F (mmul F u D) vh)) (mtr F vh)) with D.
    - unfold D. cbn [m00 m11]. rewrite sg_unit by (apply det_uvh; assumption). ring.
    - rewrite !mmul_assoc, (mul_tr vh Hv), mmul_one_r. rewrite <- mmul_assoc, (tr_mul u Hu), mmul_one_l. reflexivity.
  Qed.

  (** <u D vh', u S vh> = <D, S vh vh> *)
  Lemma gain_rotmat : forall X u s vh, is_svd F X (u, s, vh) ->
    gain (rotmat u vh) X = fst s * m00 (mmul F (mtr F vh) (mtr F vh)) + mdet F (mmul F u (mtr F vh)) * (snd s * m11 (mmul F (mtr F vh) (mtr F vh))).
  Proof.
    intros X u s vh HX. rewrite (svd_mul _ _ _ _ HX), gain_conj. destruct HX as [Hu [Hv _]].
    unfold rotmat. pose proof (det_uvh u vh Hu Hv) as Hd. rewrite (sg_unit _ Hd). set (d := mdet F (mmul F u (mtr F vh))).
    replace (mmul F (mmul F (mtr F u) (mmul F (mmul F u (mkMat 1 0 0 d)) (mtr F vh))) (mtr F vh)) with (mmul F (mkMat 1 0 0 d) (mmul F (mtr F vh) (mtr F vh))).
    - set (W := mmul F (mtr F vh) (mtr F vh)). unfold mmul. cbn [m00 m01 m10 m11]. ring.
    - rewrite !mmul_assoc. rewrite <- (mmul_assoc (mtr F u)), (tr_mul u Hu), mmul_one_l. reflexivity.
  Qed.

  (** A matrix with orthonormal rows that is not symmetric is a rotation. *)
  Lemma not_symmetric : forall A, orthogonal F A -> ~ is_symmetric F A -> m11 A = m00 A /\ m01 A = - m10 A /\ m10 A <> 0.
  Proof.
    intros [a b c d] HA HS. pose proof (orthogonal_diag _ HA) as E. destruct (orthogonal_cols _ HA) as [_ [_ [_ Hd]]].
    destruct HA as [H1 [H2 H3]]. unfold is_symmetric in HS. unfold mdet in *. cbn [m00 m01 m10 m11] in *.
    assert (Eb : b = - ((a * d - b * c) * c)).
    { replace (- ((a * d - b * c) * c)) with (b * (c * c + d * d) - d * (a * c + b * d)) by ring. rewrite H2, H3. ring. }
    destruct (unit_cases _ Hd) as [E1|E1]; rewrite E1 in *.
    - split; [rewrite E; ring|]. split; [rewrite Eb; ring|]. intros ->. apply HS. rewrite Eb. ring.
    - destruct HS. rewrite Eb. ring.
  Qed.

  (** *** Fitting exactly *)

  Lemma misfit_nonneg : forall R t A B, 0 <= misfit F R t A B.
  Proof.
    intros R t. induction A as [|a A IH]; intros [|b B]; cbn [misfit]; try apply le_refl.
    apply add_nonneg; [apply add_nonneg; apply square_nonneg|apply IH].
  Qed.

  Lemma fits_misfit : forall R t A B, length A = length B -> (fits F R t A B <-> misfit F R t A B = 0).
  Proof.
    intros R t. unfold fits. induction A as [|a A IH]; intros [|b B] HL; try discriminate HL; cbn [misfit map].
    - split; reflexivity.
    - injection HL as HL. specialize (IH B HL). split.
      + intros E. injection E as Eb EB. rewrite (proj1 IH EB). rewrite <- Eb. ring.
      + intros E. destruct (sum_zero _ _ (add_nonneg _ _ (square_nonneg _) (square_nonneg _)) (misfit_nonneg R t A B) E) as [E1 E2].
        destruct (sum_zero _ _ (square_nonneg _) (square_nonneg _) E1) as [E3 E4]. apply square_zero in E3, E4.
        rewrite <- (proj2 IH E2). f_equal. destruct (moved F R t a) as [x y]. destruct b as [x' y']. cbn [fst snd] in *. f_equal.
        * replace x with (x - x' + x') by ring. rewrite E3. ring.
        * replace y with (y - y' + y') by ring. rewrite E4. ring.
  Qed.

  Lemma le_mul_cancel : forall n x y : F, 0 <= n -> n <> 0 -> n * x <= n * y -> x <= y.
  Proof.
    intros n x y H0 Hn H. apply le_sub, (mul_nonneg_inv n); [exact H0|exact Hn|]. replace (n * (y - x)) with (n * y - n * x) by ring. apply sub_le, H.
  Qed.

  Lemma le_mul : forall n x y : F, 0 <= n -> x <= y -> n * x <= n * y.
  Proof. intros n x y H0 H. apply le_sub. replace (n * y - n * x) with (n * (y - x)) by ring. apply f_mul; [exact H0|apply sub_le, H]. Qed.

  Lemma two_nonneg : 0 <= 1 + 1.
  Proof. apply add_nonneg; apply one_nonneg. Qed.

  Lemma two_zero : 1 + 1 <> 0.
  Proof. intros E. destruct (sum_zero _ _ one_nonneg one_nonneg E) as [E1 _]. exact (one_zero E1). Qed.

  (** The rotation meant is the best one. *)
  Lemma meant_best : forall A B X u s vh R t, length A = length B -> A <> [] -> X = correlation F (centred F A) (centred F B) ->
    is_svd F X (u, s, vh) -> rotation F R ->
    misfit F (meant u vh) (shift (meant u vh) A B) A B <= misfit F R t A B.
  Proof.
    intros A B X u s vh R t HL HA EX HX HR. assert (Hu : orthogonal F u) by apply HX. assert (Hv : orthogonal F vh) by apply HX.
    destruct (meant_rotation u vh Hu Hv) as [HM _].
    apply (le_mul_cancel (fnat F (length A))); [apply fnat_nonneg|apply count_pos, HA|].
    apply (f_trans F _ (spread A B - (1 + 1) * (fnat F (length A) * gain R X))); [|rewrite EX; apply misfit_above; [exact HL|exact HA|apply HR]].
    rewrite misfit_shift by assumption. rewrite <- EX, (gain_meant X u s vh HX). apply le_sub.
    match goal with |- 0 <= ?x => replace x with ((1 + 1) * fnat F (length A) * (fst s + mdet F (mmul F u (mtr F vh)) * snd s - gain R X)) by ring end.
    apply f_mul; [apply f_mul; [apply two_nonneg|apply fnat_nonneg]|]. apply sub_le, gain_rotation; assumption.
  Qed.

  (** Opposite rotations have opposite gains. *)
  Definition mopp (A : mat F) : mat F := mkMat (- m00 A) (- m01 A) (- m10 A) (- m11 A).

  Lemma mopp_rotation : forall A, rotation F A -> rotation F (mopp A).
  Proof.
    intros [a b c d] [[H1 [H2 H3]] H4]. unfold rotation, orthogonal, mopp. cbn [m00 m01 m10 m11] in *.
    repeat split; [etransitivity; [|exact H1]|etransitivity; [|exact H2]|etransitivity; [|exact H3]|etransitivity; [|exact H4]]; ring.
  Qed.

  Lemma gain_opp : forall A X, gain (mopp A) X = - gain A X.
  Proof. intros [a b c d] [e f g h]. unfold gain, mopp. cbn [m00 m01 m10 m11]. ring. Qed.

  Lemma one_rotation : rotation F one.
  Proof. unfold rotation, orthogonal, one. cbn [m00 m01 m10 m11]. repeat split; ring. Qed.

  Lemma double_eq : forall x y z : F, x + z = y -> - x + z = y -> x = 0.
  Proof.
    intros x y z H1 H2. assert (E : (1 + 1) * x = 0). { replace ((1 + 1) * x) with ((x + z) - (- x + z)) by ring. rewrite H1, H2. ring. }
    destruct (integral _ _ E) as [E1|E1]; [destruct (two_zero E1)|exact E1].
  Qed.

  (** The points are all the same if I and -I fit equally well. *)
  Lemma fits_both : forall A B, fits F one (shift one A B) A B -> fits F (mopp one) (shift (mopp one) A B) A B -> all_equal F A.
  Proof.
    intros A B H1 H2. assert (HC : forall a, In a A -> a = mean F A).
    { intros a Ha. apply In_nth_error in Ha. destruct Ha as [i Hi].
      assert (E1 : nth_error B i = Some (moved F one (shift one A B) a)) by (transitivity (nth_error (map (moved F one (shift one A B)) A) i); [f_equal; exact H1|rewrite nth_error_map, Hi; reflexivity]).
      assert (E2 : nth_error B i = Some (moved F (mopp one) (shift (mopp one) A B) a)) by (transitivity (nth_error (map (moved F (mopp one) (shift (mopp one) A B)) A) i); [f_equal; exact H2|rewrite nth_error_map, Hi; reflexivity]).
      rewrite E1 in E2. injection E2 as E3 E4. unfold shift, vmul, one, mopp in E3, E4. cbn [fst snd m00 m01 m10 m11] in E3, E4.
      destruct a as [x y]. unfold mean. cbn [fst snd] in E3, E4.
      set (p := total F (map fst A) / fnat F (length A)) in *. set (q := total F (map snd A) / fnat F (length A)) in *.
      set (p' := total F (map fst B) / fnat F (length B)) in *. set (q' := total F (map snd B) / fnat F (length B)) in *.
      clearbody p q p' q'. f_equal.
      - replace x with (x - p + p) by ring. rewrite (double_eq (x - p) (x - p + p') p'); [ring|reflexivity|].
        etransitivity; [|etransitivity; [symmetry; exact E3|]]; ring.
      - replace y with (y - q + q) by ring. rewrite (double_eq (y - q) (y - q + q') q'); [ring|reflexivity|].
        etransitivity; [|etransitivity; [symmetry; exact E4|]]; ring. }
    intros a b Ha Hb. rewrite (HC a Ha), (HC b Hb). reflexivity.
  Qed.

  Lemma nth_error_ext_map : forall (f : vec F -> vec F) A B, length A = length B ->
    (forall i a b, nth_error A i = Some a -> nth_error B i = Some b -> b = f a) -> B = map f A.
  Proof.
    intros f. induction A as [|a A IH]; intros [|b B] HL H; try discriminate HL; [reflexivity|]. injection HL as HL. cbn [map].
    f_equal; [apply (H 0%nat a b); reflexivity|]. apply IH; [exact HL|]. intros i x y Hx Hy. apply (H (S i) x y); assumption.
  Qed.

  Lemma equal_fits : forall R A B, length A = length B -> A <> [] -> all_equal F A -> all_equal F B -> fits F R (shift R A B) A B.
  Proof.
    assert (HM : forall A : list (vec F), A <> [] -> all_equal F A -> forall a, In a A -> mean F A = a).
    { intros A HA HE a Ha. pose proof (count_pos A HA) as Hn.
      assert (HT : forall f : vec F -> F, total F (map f A) = fnat F (length A) * f a).
      { intros f. assert (HE2 : forall b, In b A -> b = a) by (intros b Hb; apply HE; assumption). clear HE Ha HA Hn.
        induction A as [|b A IH]; cbn [map length fnat]; [unfold total; cbn [fold_right]; ring|].
        unfold total. cbn [fold_right]. fold (total F (map f A)). rewrite IH by (intros c Hc; apply HE2; right; exact Hc).
        rewrite (HE2 b (or_introl eq_refl)). ring. }
      unfold mean. rewrite !HT. destruct a as [x y]. cbn [fst snd]. f_equal; field; exact Hn. }
    intros R A B HL HA HEA HEB. unfold fits. apply nth_error_ext_map with (1 := HL). intros i a b Ha Hb.
    assert (HB : B <> []) by (intros ->; destruct A; [destruct (HA eq_refl)|discriminate HL]).
    pose proof (HM A HA HEA a (nth_error_In _ _ Ha)) as E1. pose proof (HM B HB HEB b (nth_error_In _ _ Hb)) as E2.
    unfold moved, shift, vmul. rewrite E1, E2. destruct a as [x y]. destruct b as [x' y']. cbn [fst snd]. f_equal; ring.
  Qed.
End Facts.
