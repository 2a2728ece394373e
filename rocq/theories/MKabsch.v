(** MKabsch: model of AlignGraph._format_correspondence (wrappers/aligngraph.py:119-150), the rotation and translation returned by
    get_correspondence(return_indices=False).

    Arithmetic is that of an arbitrary ordered field; rounding is not modelled. numpy.linalg.svd and numpy.arccos are
    parameters. *)
From Verif Require Import Base MBits MUtils MGraph MHeur MStack MRec MEnum MApi MExt MGen.
From Coq Require Import Field.
Local Open Scope nat_scope.

(** An ordered field: the numbers of the model. *)
Record ofield : Type := mkOF {
  car :> Type;
  f0 : car; f1 : car;
  fadd : car -> car -> car; fmul : car -> car -> car; fsub : car -> car -> car; fopp : car -> car;
  fdiv : car -> car -> car; finv : car -> car;
  fle : car -> car -> Prop;
  fleb : car -> car -> bool;
  f_field : field_theory f0 f1 fadd fmul fsub fopp fdiv finv (@eq car);
  f_trans : forall x y z, fle x y -> fle y z -> fle x z;
  f_anti : forall x y, fle x y -> fle y x -> x = y;
  f_total : forall x y, fle x y \/ fle y x;
  f_add : forall x y z, fle x y -> fle (fadd x z) (fadd y z);
  f_mul : forall x y, fle f0 x -> fle f0 y -> fle f0 (fmul x y);
  f_leb : forall x y, fleb x y = true <-> fle x y
}.

Section Kabsch.
  Variable F : ofield.
  Notation "0" := (f0 F).
  Notation "1" := (f1 F).
  Infix "+" := (fadd F).
  Infix "*" := (fmul F).
  Infix "-" := (fsub F).
  Infix "/" := (fdiv F).
  Notation "- x" := (fopp F x).

  Definition vec : Type := (F * F)%type.
  Record mat : Type := mkMat { m00 : F; m01 : F; m10 : F; m11 : F }.

  (** np.matmul of two matrices, of a row and a matrix; .T; np.linalg.det *)
  Definition mmul (A B : mat) : mat :=
    mkMat (m00 A * m00 B + m01 A * m10 B) (m00 A * m01 B + m01 A * m11 B)
          (m10 A * m00 B + m11 A * m10 B) (m10 A * m01 B + m11 A * m11 B).
  Definition vmul (v : vec) (A : mat) : vec := (fst v * m00 A + snd v * m10 A, fst v * m01 A + snd v * m11 A).
  Definition mtr (A : mat) : mat := mkMat (m00 A) (m10 A) (m01 A) (m11 A).
  Definition mdet (A : mat) : F := m00 A * m11 A - m01 A * m10 A.

  Fixpoint fnat (n : nat) : F := match n with O => 0 | S k => fnat k + 1 end.
  Definition total (l : list F) : F := fold_right (fadd F) 0 l.

  (** np.mean(l, axis=0), for a list that is not empty *)
  Definition mean (l : list vec) : vec := (total (map fst l) / fnat (length l), total (map snd l) / fnat (length l)).

  (** aligngraph.py:123, 124 *)
  Definition centred (l : list vec) : list vec := map (fun v => (fst v - fst (mean l), snd v - snd (mean l))) l.

  (** aligngraph.py:126 np.matmul(a11.T, a21) *)
  Definition correlation (A B : list vec) : mat :=
    let s f := total (map (fun ab => f (fst ab) (snd ab)) (combine A B)) in
    mkMat (s (fun a b => fst a * fst b)) (s (fun a b => fst a * snd b)) (s (fun a b => snd a * fst b)) (s (fun a b => snd a * snd b)).

  (** aligngraph.py:123-137; [svd X] is what numpy returns for X: three factors, the third one already transposed. *)
  Definition kabsch (svd : mat -> mat * (F * F) * mat) (A B : list vec) : mat * vec :=
    let X := correlation (centred A) (centred B) in
    let '(V, _, U) := svd X in
    let d := mdet (mmul V (mtr U)) in
    let D := mkMat 1 0 0 (if fleb F d 0 then - (1) else 1) in
    let rotmat := mmul (mmul V D) (mtr U) in
    let m := vmul (mean A) rotmat in
    (rotmat, (- fst m + fst (mean B), - snd m + snd (mean B))).

  (** aligngraph.py:119-150: the entries S1, S2, rotmat and (dx, dy) of the dictionary. [None] stands for NaN: the mean of no points
      (get_correspondence returns no empty lists). *)
  Definition align_format (svd : mat -> mat * (F * F) * mat) (S1 S2 : list vec) (ab : list nat * list nat)
    : exc (list vec * list vec * option (mat * vec)) :=
    match pick_elems S1 (fst ab) with
    | Raise e => Raise e
    | Ret A =>
        match pick_elems S2 (snd ab) with
        | Raise e => Raise e
        | Ret B => Ret (A, B, match A with [] => None | _ => Some (kabsch svd A B) end)
        end
    end.

  (** aligngraph.py:139-141; [None] stands for NaN, what numpy.arccos returns outside [-1, 1]. *)
  Definition theta_of (arccos : F -> option F) (rotmat : mat) : F :=
    match arccos (m00 rotmat) with
    | None => 0
    | Some theta => if negb (fleb F 0 (m10 rotmat)) then - theta else theta
    end.

  (** aligngraph.py:119-150: the dictionary, with theta in front of rotmat and (dx, dy). *)
  Definition align_dict (arccos : F -> option F) (svd : mat -> mat * (F * F) * mat) (S1 S2 : list vec) (ab : list nat * list nat)
    : exc (list vec * list vec * option (F * mat * vec)) :=
    match align_format svd S1 S2 ab with
    | Raise e => Raise e
    | Ret (A, B, r) => Ret (A, B, match r with None => None | Some (R, t) => Some (theta_of arccos R, R, t) end)
    end.
End Kabsch.
Arguments mkMat {F} m00 m01 m10 m11.
Arguments m00 {F} m.
Arguments m01 {F} m.
Arguments m10 {F} m.
Arguments m11 {F} m.
